(** Reading any data value as any type, for C47. *)
From Coq Require Import List Bool NArith ZArith Lia Arith Permutation String.
From Verif Require Import ListUtil HashTabModel HashTabSpec HashTabProofs HashModel HashSpec HashProofs DataModel SerdeModel SerdeSpec SerdeTables SerdeEqual SerdeProofs.
Import ListNotations.
Open Scope nat_scope.
Notation length := List.length.
Notation SUnit := SerdeModel.SUnit.
Notation Ok := SerdeModel.Ok.

(** Collecting any items. *)
Section Collect.
Context {K : Type} (keqb : K -> K -> bool) (khash : K -> N).
Hypothesis L : lawful keqb khash.

Lemma present_true : forall x l, present keqb x l = false -> Forall (fun y => keqb y x = false) l.
Proof. intros x l. unfold present. induction l as [|y l IH]; [constructor|]. cbn. rewrite orb_false_iff. intros [E H]. constructor; auto. Qed.

Lemma representatives_in : forall l x, In x (representatives keqb l) -> In x l.
Proof. induction l as [|y l IH]; intros x H; [destruct H|]. cbn in H. destruct (present keqb y l); [right; auto|]. destruct H as [<-|H]; [now left|right; auto]. Qed.

Lemma representatives_apart : forall l, ForallOrdPairs (fun x y => keqb y x = false) (representatives keqb l).
Proof.
  induction l as [|y l IH]; [constructor|]. cbn. destruct (present keqb y l) eqn:E; [exact IH|]. constructor; [|exact IH].
  apply present_true in E. rewrite Forall_forall in *. intros x Hx. apply E. now apply representatives_in.
Qed.

Lemma latest_from_in : forall V l seen (e : K * V), In e (latest_from keqb seen l) -> In e l.
Proof. induction l as [|[k v] l IH]; intros seen e H; [destruct H|]. cbn in H. destruct (present keqb k seen); [right; eauto|]. destruct H as [<-|H]; [now left|right; eauto]. Qed.

Lemma latest_from_fresh : forall V l seen (e : K * V), In e (latest_from keqb seen l) -> Forall (fun y => keqb y (fst e) = false) seen.
Proof.
  induction l as [|[k v] l IH]; intros seen e H; [destruct H|]. cbn in H. destruct (present keqb k seen) eqn:E.
  - apply IH in H. now inversion H.
  - destruct H as [<-|H]; [now apply present_true|]. apply IH in H. now inversion H.
Qed.

Lemma latest_apart : forall V l seen, ForallOrdPairs (fun x y : K * V => keqb (fst x) (fst y) = false) (latest_from keqb seen l).
Proof.
  induction l as [|[k v] l IH]; intros seen; [constructor|]. cbn. destruct (present keqb k seen); [apply IH|]. constructor; [|apply IH].
  apply Forall_forall. intros e He. apply latest_from_fresh in He. inversion He; subst. assumption.
Qed.

Lemma fop_flip : forall A (R : A -> A -> Prop) l, (forall x y, R x y -> R y x) -> ForallOrdPairs R l -> ForallOrdPairs (fun x y => R y x) l.
Proof. intros A R l S H. eapply FOP_impl; [|exact H]. cbv beta. auto. Qed.

Lemma set_collects_any : forall l, exists t es, set_from_iter keqb khash l = Returned t /\ iterate t = Returned es /\
  (forall x, In x (map (fun e => e_key e) es) -> In x l) /\ ForallOrdPairs (fun x y => keqb x y = false) (map (fun e => e_key e) es).
Proof.
  intros l. assert (E : exists t, set_run keqb khash tab_new [SCollect l] = Returned (t, [HashTabSpec.SUnit])) by (destruct (hash_set_is_a_set K keqb khash L [SCollect l]) as (t & E); exists t; exact E).
  destruct E as (t & E). destruct (iteration_once K unit keqb khash (fun _ _ => true) L) as [I _]. destruct (I _ _ _ E) as (es & E1 & _ & P).
  exists t, es. cbn in P. split; [|split; [exact E1|split]].
  - cbn in E. destruct (set_from_iter keqb khash l); cbn in E; congruence.
  - intros x Hx. apply (Permutation_in _ P), representatives_in, in_rev in Hx. exact Hx.
  - eapply fop_perm; [apply Permutation_sym; exact P| |].
    + intros x y _ _ Exy. now rewrite (keqb_sym keqb khash L).
    + eapply FOP_impl; [|apply representatives_apart]. cbv beta. intros x y _ _ Exy. now rewrite (keqb_sym keqb khash L).
Qed.

Lemma map_collects_any : forall V (l : list (K * V)), exists t es, map_from_iter keqb khash l = Returned t /\ iterate t = Returned es /\
  (forall x, In x (map (fun e => (e_key e, e_val e)) es) -> In x l) /\ ForallOrdPairs (fun x y => keqb (fst x) (fst y) = false) (map (fun e => (e_key e, e_val e)) es).
Proof.
  intros V l. assert (E : exists t, map_run keqb (fun _ _ => true) khash tab_new [MCollect l] = Returned (t, [MUnit])) by (destruct (hash_map_is_a_map K V keqb khash (fun _ _ => true) L [MCollect l]) as (t & E); exists t; exact E).
  destruct E as (t & E). destruct (iteration_once K V keqb khash (fun _ _ => true) L) as [_ I]. destruct (I _ _ _ E) as (es & E1 & _ & P).
  exists t, es. cbn in P. split; [|split; [exact E1|split]].
  - cbn in E. destruct (map_from_iter keqb khash l); cbn in E; congruence.
  - intros x Hx. apply (Permutation_in _ P), latest_from_in, in_rev in Hx. exact Hx.
  - eapply fop_perm; [apply Permutation_sym; exact P| |].
    + intros x y _ _ Exy. now rewrite (keqb_sym keqb khash L).
    + apply latest_apart.
Qed.
End Collect.

Lemma fop_map : forall A B (f : A -> B) (R : B -> B -> Prop) l, ForallOrdPairs (fun x y => R (f x) (f y)) l -> ForallOrdPairs R (map f l).
Proof. intros A B f R l H. induction H as [|x l F H IH]; cbn; constructor; [rewrite Forall_map; exact F|exact IH]. Qed.

Lemma collect_set_any : forall l, Forall proper l -> exists l', collect_set l = Ok l' /\ (forall x, In x l' -> In x l) /\ ForallOrdPairs (fun x y => key_eqb x y = false) l'.
Proof.
  intros l G. destruct (lift_list l G) as [k <-]. destruct (set_collects_any _ _ key_lawful k) as (t & es & E1 & E2 & I & D).
  exists (map (@proj1_sig _ _) (map (fun e => e_key e) es)). split; [|split].
  - unfold collect_set, set_from_iter in *. change (@tab_new val unit) with (ft key val unit (@proj1_sig _ _) tab_new).
    rewrite (set_extend_rename key val _ _ key_eqb key_hash (@proj1_sig _ _) (fun _ _ => eq_refl) (fun _ => eq_refl)). rewrite E1. cbn [omap bind].
    rewrite iterate_ok in E2. assert (Ees : es = entries (buckets t)) by congruence. rewrite iterate_ok, Ees. cbn [bind of_table ft buckets]. rewrite entries_rename, !map_map. reflexivity.
  - intros x Hx. apply in_map_iff in Hx as (y & <- & Hy). apply in_map. auto.
  - apply fop_map. exact D.
Qed.

Lemma collect_map_any : forall l, Forall (fun e => proper (fst e)) l -> exists l', collect_map l = Ok l' /\ (forall x, In x l' -> In x l) /\ ForallOrdPairs (fun x y => key_eqb (fst x) (fst y) = false) l'.
Proof.
  intros l G. destruct (lift_pairs l G) as [k <-]. destruct (map_collects_any _ _ key_lawful _ k) as (t & es & E1 & E2 & I & D).
  exists (map (fun p : key * val => (proj1_sig (fst p), snd p)) (map (fun e => (e_key e, e_val e)) es)). split; [|split].
  - unfold collect_map, map_from_iter in *. change (@tab_new val val) with (ft key val val (@proj1_sig _ _) tab_new).
    rewrite (map_extend_rename key val val _ _ key_eqb key_hash (@proj1_sig _ _) (fun _ _ => eq_refl) (fun _ => eq_refl)). rewrite E1. cbn [omap bind].
    rewrite iterate_ok in E2. assert (Ees : es = entries (buckets t)) by congruence. rewrite iterate_ok, Ees. cbn [bind of_table ft buckets]. rewrite entries_rename, !map_map. reflexivity.
  - intros x Hx. apply in_map_iff in Hx as (y & <- & Hy). apply (in_map (fun p : key * val => (proj1_sig (fst p), snd p))). auto.
  - apply fop_map. exact D.
Qed.

(** A computation that, with enough fuel, fails or gives a result with [P]. *)
Definition settles {A : Type} (f : nat -> SerdeModel.result A) (P : A -> Prop) : Prop :=
  exists r, (r = Fails \/ exists v, r = Ok v /\ P v) /\ exists n, forall m, n <= m -> f m = r.

Lemma settles_ok : forall A (v : A) (P : A -> Prop), P v -> settles (fun _ => Ok v) P.
Proof. intros A v P H. exists (Ok v). split; [right; eauto|]. now exists 0. Qed.
Lemma settles_fail : forall A (P : A -> Prop), settles (fun _ => Fails) P.
Proof. intros A P. exists Fails. split; [now left|]. now exists 0. Qed.
Lemma settles_bind : forall A B (f : nat -> SerdeModel.result A) (g : nat -> A -> SerdeModel.result B) P Q, settles f P -> (forall v, P v -> settles (fun m => g m v) Q) ->
  settles (fun m => rbind (f m) (g m)) Q.
Proof.
  intros A B f g P Q (r & [-> |(v & -> & Hv)] & n & H) G.
  - exists Fails. split; [now left|]. exists n. intros m Hm. now rewrite H.
  - destruct (G v Hv) as (r & Hr & k & Hk). exists r. split; [exact Hr|]. exists (n + k). intros m Hm. rewrite H by lia. cbn [rbind]. apply Hk. lia.
Qed.
Lemma settles_impl : forall A (f : nat -> SerdeModel.result A) (P Q : A -> Prop), settles f P -> (forall v, P v -> Q v) -> settles f Q.
Proof. intros A f P Q (r & Hr & H) I. exists r. split; [|exact H]. destruct Hr as [-> |(v & -> & Hv)]; [now left|right; eauto]. Qed.
Lemma settles_ext : forall A (f g : nat -> SerdeModel.result A) P, settles f P -> (forall m, f m = g m) -> settles g P.
Proof. intros A f g P (r & Hr & n & H) E. exists r. split; [exact Hr|]. exists n. intros m Hm. rewrite <- E. auto. Qed.
Lemma settles_step : forall A (f g : nat -> SerdeModel.result A) P, settles f P -> (forall m, g (S m) = f m) -> settles g P.
Proof. intros A f g P (r & Hr & n & H) E. exists r. split; [exact Hr|]. exists (S n). intros m Hm. destruct m; [lia|]. rewrite E. apply H. lia. Qed.
Lemma settles_rall : forall A B (f : nat -> A -> SerdeModel.result B) (P : A -> B -> Prop) l, Forall (fun x => settles (fun m => f m x) (P x)) l ->
  settles (fun m => rall (map (f m) l)) (Forall2 P l).
Proof.
  intros A B f P l H. induction H as [|x l Hx H IH]; [apply settles_ok; constructor|]. cbn [map rall].
  apply settles_bind with (P := P x); [exact Hx|]. intros v Hv. apply settles_bind with (P := Forall2 P l); [exact IH|]. intros r Hr. apply settles_ok. now constructor.
Qed.
Lemma settles_pure : forall A (x : SerdeModel.result A) (P : A -> Prop), x = Fails \/ (exists v, x = Ok v /\ P v) -> settles (fun _ => x) P.
Proof. intros A x P H. exists x. split; [exact H|]. now exists 0. Qed.

(** The size of a data value. *)
Fixpoint dsize (d : data N) : nat :=
  match d with
  | Array l | Tuple l | DSet l => S (list_sum (map dsize l))
  | Rec l => S (list_sum (map (fun e => dsize (snd e)) l))
  | DMap l => S (list_sum (map (fun e => dsize (fst e) + dsize (snd e)) l))
  | Variant_ _ p => S (dsize p)
  | _ => 1
  end.
Lemma dsize_pos : forall d, 1 <= dsize d.
Proof. destruct d; cbn; lia. Qed.
Lemma list_sum_in : forall l x, In x l -> x <= list_sum l.
Proof. induction l as [|y l IH]; intros x H; [destruct H|]. cbn. destruct H as [->|H]; [lia|]. apply IH in H. unfold list_sum in H. lia. Qed.

(** Data values whose ints and floats the program can have, without negative zeros. *)
Definition clean (d : data N) : Prop := proper (SData d).

Lemma one_good : forall name v, good (VVariant (ascii_bytes name) (Some (VTuple [v]))) -> good v.
Proof. intros name v [V Z]. inversion V as [| | | | | | | |? ? V1| |]; inversion Z as [| | | | | | | |? ? Z1| |]; subst. inversion V1 as [| | | | |? V2| | | | |]; inversion Z1 as [| | | | |? Z2| | | | |]; subst. inversion V2; inversion Z2; subst. now split. Qed.
Lemma clean_list : forall l, good (VArray (map erase_data l)) -> Forall clean l.
Proof. intros l H. apply good_array in H. rewrite Forall_map in H. exact H. Qed.
Lemma clean_array : forall l, clean (Array l) -> Forall clean l.
Proof. intros l H. apply clean_list. eapply (one_good "Array"), H. Qed.
Lemma clean_tuple : forall l, clean (Tuple l) -> Forall clean l.
Proof. intros l H. apply clean_list. eapply (one_good "Tuple"), H. Qed.
Lemma clean_set : forall l, clean (DSet l) -> Forall clean l.
Proof. intros l H. apply clean_list. eapply (one_good "Set"), H. Qed.
Lemma clean_record : forall l, clean (Rec l) -> Forall (fun e => clean (snd e)) l.
Proof.
  intros l H. apply (one_good "Record") in H. apply good_array in H. rewrite Forall_map in H. eapply Forall_impl; [|exact H]. cbv beta. intros e G.
  apply good_tuple in G. inversion G as [|? ? _ G2]; subst. now inversion G2.
Qed.
Lemma clean_map : forall l, clean (DMap l) -> Forall (fun e => clean (fst e) /\ clean (snd e)) l.
Proof.
  intros l H. apply (one_good "Map") in H. apply good_array in H. rewrite Forall_map in H. eapply Forall_impl; [|exact H]. cbv beta. intros e G.
  apply good_tuple in G. inversion G as [|? ? G1 G2]; subst. inversion G2; subst. now split.
Qed.
Lemma clean_variant : forall n p, clean (Variant_ n p) -> clean p.
Proof.
  intros n p [V Z]. cbn in V, Z. inversion V as [| | | | | | | |? ? V1| |]; inversion Z as [| | | | | | | |? ? Z1| |]; subst.
  assert (G : good (VTuple [VString (bytes_of n); erase_data p])) by (split; assumption). apply good_tuple in G. inversion G as [|? ? _ G2]; subst. now inversion G2.
Qed.
Lemma clean_unit : clean Unit.
Proof. split; constructor. Qed.

Lemma proper_array_intro : forall l, Forall proper l -> proper (SArray l).
Proof. intros l H. split; cbn; constructor; rewrite Forall_map; (eapply Forall_impl; [|exact H]); cbv beta; intros a [? ?]; assumption. Qed.
Lemma proper_tuple_intro : forall l, Forall proper l -> proper (STuple l).
Proof. intros l H. split; cbn; constructor; rewrite Forall_map; (eapply Forall_impl; [|exact H]); cbv beta; intros a [? ?]; assumption. Qed.
Lemma proper_set_intro : forall l, Forall proper l -> ForallOrdPairs (fun x y => key_eqb x y = false) l -> proper (SSet l).
Proof.
  intros l H D. split; cbn; constructor; try (rewrite Forall_map; eapply Forall_impl; [|exact H]; cbv beta; intros a [? ?]; assumption). now apply fop_map.
Qed.
Lemma proper_map_intro : forall l, Forall (fun e => proper (fst e) /\ proper (snd e)) l -> ForallOrdPairs (fun x y => key_eqb (fst x) (fst y) = false) l -> proper (SMap l).
Proof.
  intros l H D. split; cbn; constructor; try (rewrite Forall_map; eapply Forall_impl; [|exact H]; cbv beta; intros [a b] [[? ?] [? ?]]; split; assumption).
  apply fop_map. eapply FOP_impl; [|exact D]. now intros [? ?] [? ?] _ _.
Qed.

Section Read.
Variable shape : nat -> ty.
Variable round : N -> Z.
Variable from_int : Z -> N.
Variable rank : nat -> nat.
Hypothesis Hguard : guarded shape rank.
Hypothesis Hnames : forall n, distinct_names (shape n).
Hypothesis Hround : forall x, (- 2 ^ 63 <= round x < 2 ^ 63)%Z.
Hypothesis Hfrom : forall i, (- 2 ^ 63 <= i < 2 ^ 63)%Z -> (from_int i < 2 ^ 64)%N /\ from_int i <> (2 ^ 63)%N.
Notation deserialize := (deserialize shape round from_int).

Definition reads (t : ty) (d : data N) : Prop := settles (fun m => deserialize m t d) (fun v => has_type shape v t /\ proper v).
Definition smaller_reads (d : data N) : Prop := forall d' t, dsize d' < dsize d -> distinct_names t -> clean d' -> reads t d'.

Ltac step := eapply settles_step; [|intros m; cbn [SerdeModel.deserialize]; reflexivity].
Ltac fails := step; apply settles_fail.

Lemma read_items : forall d l t, smaller_reads d -> Forall (fun x => dsize x < dsize d) l -> Forall clean l -> distinct_names t ->
  settles (fun m => rall (map (deserialize m t) l)) (fun vs => Forall (fun v => has_type shape v t) vs /\ Forall proper vs).
Proof.
  intros d l t SR Sz Cl Dn. eapply settles_impl.
  - apply (settles_rall _ _ (fun m x => deserialize m t x) (fun _ v => has_type shape v t /\ proper v)). rewrite Forall_forall in *. intros x Hx. apply SR; auto.
  - cbv beta. intros vs F. clear - F. induction F as [|x v l vs [? ?] F [? ?]]; split; constructor; auto.
Qed.

Lemma read_set : forall d l t, smaller_reads d -> Forall (fun x => dsize x < dsize d) l -> Forall clean l -> distinct_names t ->
  settles (fun m => rbind (rall (map (deserialize m t) l)) (fun vs => rbind (collect_set vs) (fun vs => Ok (SSet vs)))) (fun v => has_type shape v (TSet t) /\ proper v).
Proof.
  intros d l t SR Sz Cl Dn. eapply settles_bind; [now apply (read_items d)|]. cbv beta. intros vs [Ht Pr].
  destruct (collect_set_any vs Pr) as (ws & -> & I & D). cbn [rbind]. apply settles_ok. rewrite Forall_forall in Ht, Pr. split.
  - constructor. apply Forall_forall. auto.
  - apply proper_set_intro; [apply Forall_forall; auto|exact D].
Qed.

Lemma read_map : forall X (f : nat -> X -> SerdeModel.result (val * val)) l k t,
  Forall (fun x => settles (fun m => f m x) (fun e => (has_type shape (fst e) k /\ has_type shape (snd e) t) /\ proper (fst e) /\ proper (snd e))) l ->
  settles (fun m => rbind (rall (map (f m) l)) (fun es => rbind (collect_map es) (fun es => Ok (SMap es)))) (fun v => has_type shape v (TMap k t) /\ proper v).
Proof.
  intros X f l k t H. eapply settles_bind; [now apply (settles_rall _ _ f (fun _ e => (has_type shape (fst e) k /\ has_type shape (snd e) t) /\ proper (fst e) /\ proper (snd e)))|].
  cbv beta. intros vs F.
  assert (G : forall e, In e vs -> (has_type shape (fst e) k /\ has_type shape (snd e) t) /\ proper (fst e) /\ proper (snd e)).
  { clear - F. induction F as [|x v l vs Hv F IH]; intros e He; [destruct He|destruct He as [<-|He]; auto]. }
  destruct (collect_map_any vs) as (ws & -> & I & D); [apply Forall_forall; intros e He; apply (G e He)|]. cbn [rbind]. apply settles_ok. split.
  - constructor. apply Forall_forall. intros e He. apply (G e); auto.
  - apply proper_map_intro; [apply Forall_forall; intros e He; apply (G e); auto|exact D].
Qed.

Lemma sizes_sum : forall l, Forall (fun x => dsize x < S (list_sum (map dsize l))) l.
Proof. intros l. apply Forall_forall. intros x Hx. apply (in_map dsize), list_sum_in in Hx. lia. Qed.

Lemma read_tuple : forall d l ts, smaller_reads d -> Forall (fun x => dsize x < dsize d) l -> Forall clean l -> Forall distinct_names ts ->
  settles (fun m => rbind (rall (map (fun x => rbind (at_index l (fst x)) (deserialize m (snd x))) (combine (seq 0 (length ts)) ts))) (fun vs => Ok (STuple vs)))
    (fun v => has_type shape v (TTuple ts) /\ proper v).
Proof.
  intros d l ts SR Sz Cl Dn. eapply settles_bind.
  - apply (settles_rall _ _ (fun m x => rbind (at_index l (fst x)) (deserialize m (snd x))) (fun x v => has_type shape v (snd x) /\ proper v)).
    apply Forall_forall. intros [i t] Hx. cbn [fst snd]. unfold at_index. destruct (nth_error l i) as [x|] eqn:E; cbn [rbind]; [|apply settles_fail].
    apply nth_error_In in E. rewrite Forall_forall in *. apply in_combine_r in Hx. apply SR; auto.
  - cbv beta. intros vs F. apply settles_ok.
    assert (G : Forall2 (fun v t => has_type shape v t /\ proper v) vs ts).
    { clear - F. revert vs F. generalize 0. induction ts as [|t ts IH]; intros k vs F; cbn in F; inversion F; subst; constructor; eauto. }
    split.
    + constructor. eapply Forall2_impl; [|exact G]. now intros ? ? [? _].
    + apply proper_tuple_intro. clear - G. induction G as [|v t vs ts [_ ?] G IH]; constructor; auto.
Qed.

Lemma read_record : forall d l fs, smaller_reads d -> Forall (fun e => dsize (snd e) < dsize d) l -> Forall (fun e => clean (snd e)) l -> NoDup (map fst fs) -> Forall (fun f => distinct_names (snd f)) fs ->
  settles (fun m => rbind (rall (map (fun x => rbind (expect_entry l (fst x)) (deserialize m (snd x))) fs)) (fun vs => Ok (STuple vs)))
    (fun v => has_type shape v (TRecord fs) /\ proper v).
Proof.
  intros d l fs SR Sz Cl ND Dn. eapply settles_bind.
  - apply (settles_rall _ _ (fun m x => rbind (expect_entry l (fst x)) (deserialize m (snd x))) (fun x v => has_type shape v (snd x) /\ proper v)).
    apply Forall_forall. intros [nm t] Hx. cbn [fst snd]. unfold expect_entry. destruct (entry_named nm l) as [x|] eqn:E; cbn [rbind]; [|apply settles_fail].
    apply entry_named_some in E. rewrite Forall_forall in *. apply SR; [apply (Sz _ E)|apply (Dn _ Hx)|apply (Cl _ E)].
  - cbv beta. intros vs F. apply settles_ok.
    assert (G : Forall2 (fun v t => has_type shape v t /\ proper v) vs (map snd fs)).
    { clear - F. revert vs F. induction fs as [|t fs IH]; intros vs F; cbn in F; inversion F; subst; constructor; eauto. }
    split.
    + constructor; [exact ND|]. eapply Forall2_impl; [|exact G]. now intros ? ? [? _].
    + apply proper_tuple_intro. clear - G. induction G as [|v t vs ts [_ ?] G IH]; constructor; auto.
Qed.

Lemma variant_read : forall d alts name p, smaller_reads d -> dsize p < dsize d -> clean p -> NoDup (map fst alts) -> Forall (fun f => distinct_names (snd f)) alts ->
  settles (fun m => match entry_named name alts with
    | None => Fails | Some TUnit => Ok (SVariant name None)
    | Some t => rbind (deserialize m t p) (fun v => Ok (SVariant name (Some v))) end) (fun v => has_type shape v (TVariant alts) /\ proper v).
Proof.
  intros d alts name p SR Sz Cl ND Dn. destruct (entry_named name alts) as [t|] eqn:E; [|apply settles_fail]. apply entry_named_some in E.
  assert (Dt : distinct_names t) by (rewrite Forall_forall in Dn; apply (Dn _ E)).
  assert (B : t <> TUnit -> settles (fun m => rbind (deserialize m t p) (fun v => Ok (SVariant name (Some v)))) (fun v => has_type shape v (TVariant alts) /\ proper v)).
  { intros Nu. eapply settles_bind; [apply SR; eassumption|]. cbv beta. intros v [Ht [V Z]]. apply settles_ok. split; [eapply ht_variant; eassumption|]. split; cbn; now constructor. }
  destruct t; try (apply B; discriminate). apply settles_ok. split; [now constructor|]. split; constructor.
Qed.

Lemma read_data : forall d, smaller_reads d -> clean d -> forall t, distinct_names t -> (forall n, t <> TNamed n) -> reads t d.
Proof.
  intros d SR Cl t Dn Nn. unfold reads. destruct t.
  - step. apply settles_pure. destruct d as [| | | | | | [|] | | | | |]; cbn; auto; right; exists SUnit; repeat split; constructor.
  - step. apply settles_pure. destruct d; auto. right. eexists. repeat split; constructor.
  - step. apply settles_pure. destruct d; auto; right; eexists; (split; [reflexivity|]); (split; [constructor|]).
    + apply (one_good "Int") in Cl. exact Cl.
    + split; constructor. apply Hround.
  - step. apply settles_pure. destruct d; auto; right; eexists; (split; [reflexivity|]); (split; [constructor|]).
    + apply (one_good "Int") in Cl. destruct Cl as [V _]. inversion V; subst. destruct (Hfrom i); [assumption|]. split; constructor; assumption.
    + apply (one_good "Float") in Cl. exact Cl.
  - step. apply settles_pure. destruct d; auto. right. eexists. repeat split; constructor.
  - step. apply settles_ok. split; [constructor|exact Cl].
  - inversion Dn; subst. destruct d; try fails. step. eapply settles_bind; [apply (read_items (Array l)); [exact SR|apply sizes_sum|now apply clean_array|assumption]|].
    cbv beta. intros vs [Ht Pr]. apply settles_ok. split; [now constructor|now apply proper_array_intro].
  - inversion Dn; subst. step. destruct d; cbn [to_tuple rbind]; try apply settles_fail.
    + apply (read_tuple (Array l0)); [exact SR|apply sizes_sum|now apply clean_array|assumption].
    + apply (read_tuple (Tuple l0)); [exact SR|apply sizes_sum|now apply clean_tuple|assumption].
  - inversion Dn; subst. step. destruct d as [| | | | | | | |e| | |]; cbn [to_record rbind]; try apply settles_fail.
    apply (read_record (Rec e)); [exact SR| |now apply clean_record|assumption..].
    apply Forall_forall. intros x Hx. cbn [dsize]. apply (in_map (fun e => dsize (snd e))), list_sum_in in Hx. lia.
  - inversion Dn; subst. step. destruct d as [| | | | | | | |e| | |name p]; cbn [to_variant rbind]; try apply settles_fail.
    + unfold expect_entry at 1. destruct (entry_named type_name e) as [[]|] eqn:Et; cbn [rbind to_str]; try apply settles_fail. cbn [fst snd].
      apply (variant_read (Rec e)); [exact SR| | |assumption..].
      * destruct (entry_named data_name e) as [p|] eqn:E; cbn [dsize].
        -- apply entry_named_some in E. apply (in_map (fun e => dsize (snd e))), list_sum_in in E. cbn [snd] in E. lia.
        -- destruct e as [|e1 e]; [discriminate|]. cbn. pose proof (dsize_pos (snd e1)). lia.
      * destruct (entry_named data_name e) as [p|] eqn:E; [|apply clean_unit]. apply entry_named_some in E. apply clean_record in Cl. rewrite Forall_forall in Cl. apply (Cl _ E).
    + cbn [fst snd]. apply (variant_read (Variant_ name p)); [exact SR|cbn; lia|now apply clean_variant in Cl|assumption..].
  - inversion Dn; subst. destruct d as [| | | | | |l| | |l| |]; try fails; step.
    + apply (read_set (Array l)); [exact SR|apply sizes_sum|now apply clean_array|assumption].
    + apply (read_set (DSet l)); [exact SR|apply sizes_sum|now apply clean_set|assumption].
  - inversion Dn; subst. destruct d as [| | | | | |l| | | |l|]; try fails; step.
    + apply (read_map _ (fun m e => rbind (to_tuple e) (fun p => rpair (rbind (at_index p 0) (deserialize m t1)) (rbind (at_index p 1) (deserialize m t2))))).
      apply Forall_forall. intros x Hx. pose proof (clean_array _ Cl) as Cs. rewrite Forall_forall in Cs. specialize (Cs _ Hx).
      pose proof (sizes_sum l) as Sz. rewrite Forall_forall in Sz. specialize (Sz _ Hx).
      assert (B : forall q, to_tuple x = Ok q -> forall y, In y q -> clean y /\ dsize y < dsize (Array l)).
      { intros q E y Hy. destruct x; try discriminate; cbn in E; injection E as ->; cbn [dsize] in *; apply (in_map dsize) in Hy as Hs; apply list_sum_in in Hs;
          (split; [|lia]); [apply clean_array in Cs|apply clean_tuple in Cs]; rewrite Forall_forall in Cs; auto. }
      destruct (to_tuple x) as [q| | |] eqn:E; cbn [rbind]; [|apply settles_fail|exfalso; clear - E; destruct x; cbn in E; congruence..].
      unfold rpair. eapply settles_bind with (P := fun v => has_type shape v t1 /\ proper v).
      * unfold at_index. destruct (nth_error q 0) as [y|] eqn:Ey; cbn [rbind]; [|apply settles_fail]. apply nth_error_In in Ey. destruct (B q eq_refl y Ey). now apply SR.
      * intros v [Hv1 Hv2]. eapply settles_bind with (P := fun v => has_type shape v t2 /\ proper v).
        -- unfold at_index. destruct (nth_error q 1) as [y|] eqn:Ey; cbn [rbind]; [|apply settles_fail]. apply nth_error_In in Ey. destruct (B q eq_refl y Ey). now apply SR.
        -- intros w [Hw1 Hw2]. apply settles_ok. cbn. auto.
    + apply (read_map _ (fun m e => rpair (deserialize m t1 (fst e)) (deserialize m t2 (snd e)))).
      apply Forall_forall. intros x Hx. pose proof (clean_map _ Cl) as Cs. rewrite Forall_forall in Cs. specialize (Cs _ Hx) as [C1 C2].
      apply (in_map (fun e => dsize (fst e) + dsize (snd e))), list_sum_in in Hx.
      unfold rpair. eapply settles_bind; [apply SR; [cbn [dsize]; lia|assumption..]|]. cbv beta. intros v [Hv1 Hv2].
      eapply settles_bind; [apply SR; [cbn [dsize]; lia|assumption..]|]. cbv beta. intros w [Hw1 Hw2]. apply settles_ok. cbn. auto.
  - exfalso. eapply Nn. reflexivity.
Qed.

Lemma read_all : forall d t, distinct_names t -> clean d -> reads t d.
Proof.
  assert (G : forall s d, dsize d < s -> clean d -> forall t, distinct_names t -> reads t d).
  { induction s as [|s IH]; [lia|]. intros d Hs Cl.
    assert (SR : smaller_reads d) by (intros d' t Hd Dn C; apply IH; [lia|assumption..]).
    assert (N : forall r n, rank n < r -> reads (TNamed n) d).
    { induction r as [|r IHr]; [lia|]. intros n Hn. unfold reads. eapply settles_step; [|intros m; cbn [SerdeModel.deserialize]; reflexivity].
      assert (R : reads (shape n) d).
      { destruct (shape n) eqn:E; try (apply read_data; [exact SR|exact Cl|rewrite <- E; apply Hnames|discriminate]). apply IHr. apply Hguard in E. lia. }
      eapply settles_impl; [exact R|]. cbv beta. intros v [Hv Pv]. split; [constructor; exact Hv|exact Pv]. }
    intros t Dn. destruct t; try (apply read_data; [exact SR|exact Cl|exact Dn|discriminate]). apply (N (S (rank n))). lia. }
  intros d t Dn Cl. apply (G (S (dsize d)) d); [lia|assumption..].
Qed.
End Read.
