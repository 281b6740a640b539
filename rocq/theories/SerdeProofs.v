(** Proofs for C47. *)
From Coq Require Import List Bool NArith ZArith Lia Arith Permutation String.
From Verif Require Import ListUtil HashModel HashSpec HashProofs DataModel DataTextModel JsonSpec SerdeModel SerdeSpec SerdeTables SerdeEqual.
Import ListNotations.
Open Scope nat_scope.

Notation Ok := SerdeModel.Ok.
Notation result := SerdeModel.result.
Notation NoFuel := SerdeModel.NoFuel.
Notation length := List.length.

Section HasTypeInd.
Variable shape : nat -> ty.
Variable P : val -> ty -> Prop.
Hypothesis H0 : P SUnit TUnit.
Hypothesis H1 : forall b, P (SBool b) TBool.
Hypothesis H2 : forall i, P (SInt i) TInt.
Hypothesis H3 : forall f, P (SFloat f) TFloat.
Hypothesis H4 : forall s, P (SString s) TString.
Hypothesis H5 : forall d, P (SData d) TData.
Hypothesis H6 : forall t l, Forall (fun v => P v t) l -> P (SArray l) (TArray t).
Hypothesis H7 : forall ts l, Forall2 P l ts -> P (STuple l) (TTuple ts).
Hypothesis H8 : forall fs l, NoDup (map fst fs) -> Forall2 P l (map snd fs) -> P (STuple l) (TRecord fs).
Hypothesis H9 : forall alts tag, NoDup (map fst alts) -> In (tag, TUnit) alts -> P (SVariant tag None) (TVariant alts).
Hypothesis H10 : forall alts tag t v, NoDup (map fst alts) -> In (tag, t) alts -> t <> TUnit -> has_type shape v t -> P v t -> P (SVariant tag (Some v)) (TVariant alts).
Hypothesis H11 : forall t l, Forall (fun v => P v t) l -> P (SSet l) (TSet t).
Hypothesis H12 : forall k t l, Forall (fun e => P (fst e) k /\ P (snd e) t) l -> P (SMap l) (TMap k t).
Hypothesis H13 : forall n v, P v (shape n) -> P v (TNamed n).
Fixpoint has_type_ind' (v : val) (t : ty) (h : has_type shape v t) : P v t :=
  match h in has_type _ v t return P v t with
  | ht_unit _ => H0 | ht_bool _ b => H1 b | ht_int _ i => H2 i | ht_float _ x => H3 x | ht_string _ s => H4 s | ht_data _ d => H5 d
  | ht_array _ t l F => H6 t l ((fix go l (F : Forall (fun v => has_type shape v t) l) : Forall (fun v => P v t) l :=
      match F with Forall_nil _ => Forall_nil _ | Forall_cons x h F => Forall_cons x (has_type_ind' x t h) (go _ F) end) l F)
  | ht_tuple _ ts l F => H7 ts l ((fix go l ts (F : Forall2 (has_type shape) l ts) : Forall2 P l ts :=
      match F with Forall2_nil _ => Forall2_nil _ | Forall2_cons x t h F => Forall2_cons x t (has_type_ind' x t h) (go _ _ F) end) l ts F)
  | ht_record _ fs l D F => H8 fs l D ((fix go l ts (F : Forall2 (has_type shape) l ts) : Forall2 P l ts :=
      match F with Forall2_nil _ => Forall2_nil _ | Forall2_cons x t h F => Forall2_cons x t (has_type_ind' x t h) (go _ _ F) end) l (map snd fs) F)
  | ht_tag _ alts tag D Hi => H9 alts tag D Hi
  | ht_variant _ alts tag t v D Hi Hn h => H10 alts tag t v D Hi Hn h (has_type_ind' v t h)
  | ht_set _ t l F => H11 t l ((fix go l (F : Forall (fun v => has_type shape v t) l) : Forall (fun v => P v t) l :=
      match F with Forall_nil _ => Forall_nil _ | Forall_cons x h F => Forall_cons x (has_type_ind' x t h) (go _ F) end) l F)
  | ht_map _ k t l F => H12 k t l ((fix go l (F : Forall (fun e => has_type shape (fst e) k /\ has_type shape (snd e) t) l) : Forall (fun e => P (fst e) k /\ P (snd e) t) l :=
      match F with
      | Forall_nil _ => Forall_nil _
      | Forall_cons x h F => Forall_cons x (match h with conj a b => conj (has_type_ind' _ k a) (has_type_ind' _ t b) end) (go _ F)
      end) l F)
  | ht_named _ n v h => H13 n v (has_type_ind' v (shape n) h)
  end.
End HasTypeInd.

(** The sets and maps in the value can be collected again. *)
Inductive keyed : val -> Prop :=
| k_unit : keyed SUnit
| k_bool : forall b, keyed (SBool b)
| k_int : forall i, keyed (SInt i)
| k_float : forall x, keyed (SFloat x)
| k_string : forall s, keyed (SString s)
| k_data : forall d, keyed (SData d)
| k_array : forall l, Forall keyed l -> keyed (SArray l)
| k_tuple : forall l, Forall keyed l -> keyed (STuple l)
| k_tag : forall tag, keyed (SVariant tag None)
| k_variant : forall tag v, keyed v -> keyed (SVariant tag (Some v))
| k_set : forall l, Forall keyed l -> Forall proper l -> ForallOrdPairs (fun x y => key_eqb x y = false) l -> keyed (SSet l)
| k_map : forall l, Forall (fun e => keyed (fst e) /\ keyed (snd e)) l -> Forall (fun e => proper (fst e)) l ->
    ForallOrdPairs (fun x y => key_eqb (fst x) (fst y) = false) l -> keyed (SMap l).

Lemma plain_keyed : forall v, plain v -> keyed v.
Proof.
  apply (val_ind' (fun v => plain v -> keyed v)); intros; try now constructor.
  - constructor. match goal with H : plain _ |- _ => inversion H; subst end. rewrite Forall_forall in *. auto.
  - constructor. match goal with H : plain _ |- _ => inversion H; subst end. rewrite Forall_forall in *. auto.
  - constructor. match goal with H : plain _ |- _ => inversion H; subst end. auto.
Qed.

Lemma proper_list : forall l, Forall good (map erase l) -> Forall proper l.
Proof. intros l H. rewrite Forall_map in H. exact H. Qed.

Lemma proper_array : forall l, proper (SArray l) -> Forall proper l.
Proof. intros l H. apply proper_list. now apply good_array. Qed.
Lemma proper_tuple : forall l, proper (STuple l) -> Forall proper l.
Proof. intros l H. apply proper_list. now apply good_tuple. Qed.
Lemma proper_variant : forall t v, proper (SVariant t (Some v)) -> proper v.
Proof. intros t v [V Z]. cbn in V, Z. inversion V; inversion Z; subst. now split. Qed.
Lemma proper_set : forall l, proper (SSet l) -> Forall proper l /\ ForallOrdPairs (fun x y => key_eqb x y = false) l.
Proof.
  intros l H. split; [apply proper_list; now apply good_set|]. destruct H as [V _]. cbn in V. inversion V as [| | | | | | | | |? _ D|]; subst.
  now apply fop_unmap in D.
Qed.
Lemma proper_map : forall l, proper (SMap l) -> Forall (fun e => proper (fst e) /\ proper (snd e)) l /\ ForallOrdPairs (fun x y => key_eqb (fst x) (fst y) = false) l.
Proof.
  intros l H. split.
  - apply good_map in H. rewrite Forall_map in H. eapply Forall_impl; [|exact H]. now intros [k w].
  - destruct H as [V _]. cbn in V. inversion V as [| | | | | | | | | |? _ D]; subst. apply fop_unmap in D.
    eapply FOP_impl; [|exact D]. now intros [? ?] [? ?] _ _.
Qed.

Lemma proper_keyed : forall v, proper v -> keyed v.
Proof.
  apply (val_ind' (fun v => proper v -> keyed v)); intros; try now constructor.
  - constructor. apply proper_array in H0. rewrite Forall_forall in *. auto.
  - constructor. apply proper_tuple in H0. rewrite Forall_forall in *. auto.
  - constructor. apply proper_variant in H0. auto.
  - apply proper_set in H0 as [G D]. constructor; try assumption. rewrite Forall_forall in *. auto.
  - apply proper_map in H0 as [G D]. constructor; try assumption; rewrite Forall_forall in *; intros e He; destruct (G e He); [|assumption].
    destruct (H e He). auto.
Qed.

(** Lists of results. *)
Lemma Forall2_impl : forall A B (R S : A -> B -> Prop), (forall a b, R a b -> S a b) -> forall l r, Forall2 R l r -> Forall2 S l r.
Proof. intros A B R S H l r F. induction F; constructor; auto. Qed.

Lemma rall_ok : forall A B (f : A -> result B) l r, Forall2 (fun x y => f x = Ok y) l r -> rall (map f l) = Ok r.
Proof. intros A B f l r F. induction F as [|x y l r E F IH]; [reflexivity|]. cbn [map rall]. rewrite E. cbn [rbind]. now rewrite IH. Qed.

Lemma rall_inv : forall A B (f : A -> result B) l r, rall (map f l) = Ok r -> Forall2 (fun x y => f x = Ok y) l r.
Proof.
  intros A B f. induction l as [|x l IH]; intros r E; cbn [map rall] in E.
  - injection E as <-. constructor.
  - destruct (f x) as [y| | |] eqn:Ey; try discriminate. cbn [rbind] in E. destruct (rall (map f l)) as [r'| | |] eqn:Er; try discriminate. cbn [rbind] in E.
    injection E as <-. constructor; [exact Ey|now apply IH].
Qed.

Lemma name_eqb_eq : forall a b, name_eqb a b = true <-> a = b.
Proof.
  induction a as [|x a IH]; intros [|y b]; cbn; try (split; congruence). rewrite andb_true_iff, Z.eqb_eq, IH. split; [intros [-> ->]; reflexivity|intros [= -> ->]; auto].
Qed.
Lemma name_eqb_refl : forall a, name_eqb a a = true.
Proof. intros. now apply name_eqb_eq. Qed.

Lemma entry_named_in : forall A (l : list (list Z * A)) n a, NoDup (map fst l) -> In (n, a) l -> entry_named n l = Some a.
Proof.
  intros A. induction l as [|[m b] l IH]; intros n a D I; [destruct I|]. cbn in D. inversion D as [|? ? X D']; subst. cbn [entry_named].
  destruct I as [[= -> ->]|I]; [now rewrite name_eqb_refl|]. destruct (name_eqb m n) eqn:E; [|now apply IH].
  apply name_eqb_eq in E. subst m. exfalso. apply X. apply (in_map fst) in I. exact I.
Qed.

Lemma entry_named_some : forall A (l : list (list Z * A)) n a, entry_named n l = Some a -> In (n, a) l.
Proof.
  intros A. induction l as [|[m b] l IH]; intros n a E; [discriminate|]. cbn [entry_named] in E. destruct (name_eqb m n) eqn:Em.
  - apply name_eqb_eq in Em. subst. injection E as ->. now left.
  - right. now apply IH.
Qed.

Lemma zip_combine : forall A B (l : list A) (r : list B), length l = length r -> zip l r = Some (combine l r).
Proof. intros A B. induction l as [|a l IH]; intros [|b r] E; cbn in *; try discriminate; [reflexivity|]. rewrite IH by lia. reflexivity. Qed.

Section Round.
Variable shape : nat -> ty.
Variable round : N -> Z.
Variable from_int : Z -> N.
Variable whole : N -> option Z.
Variable closed : nat -> Prop.
Variable json : bool.

Notation serialize := (serialize shape).
Notation deserialize := (deserialize shape round from_int).

Definition img (d : data N) : data N := if json then json_image N whole d else d.

Hypothesis Hclosed : json = true -> forall n, closed n -> without_data closed (shape n).
Hypothesis Hwhole : json = true -> forall x i, (x < 2 ^ 64)%N -> x <> (2 ^ 63)%N -> whole x = Some i -> from_int i = x.

(** From [n] on, [v] is written as [d] and the image of [d] is read as [v']. *)
Definition trip (t : ty) (v : val) (d : data N) (v' : val) (n : nat) : Prop :=
  forall m, n <= m -> serialize m t v = Ok d /\ deserialize m t (img d) = Ok v'.

Definition back (v : val) (t : ty) : Prop := keyed v -> (json = true -> proper v /\ without_data closed t) ->
  exists d v' n, trip t v d v' n /\ has_type shape v' t /\ sim v' v.

Lemma trip_later : forall t v d v' n k, trip t v d v' n -> n <= k -> trip t v d v' k.
Proof. intros t v d v' n k H L m Hm. apply H. lia. Qed.

(** Lists of values of one type. *)
Lemma back_list : forall t l, Forall (fun v => back v t) l -> Forall keyed l -> (json = true -> Forall proper l /\ without_data closed t) ->
  exists ds vs n, Forall2 (fun v dv => trip t v (fst dv) (snd dv) n /\ has_type shape (snd dv) t /\ sim (snd dv) v) l (combine ds vs) /\ length ds = length vs.
Proof.
  intros t l H. induction H as [|v l Hv H IH]; intros K J.
  - exists [], [], 0. split; [constructor|reflexivity].
  - inversion K as [|? ? Kv Kl]; subst. destruct (Hv Kv) as (d & v' & n & T & Ht & S).
    { intros j. destruct (J j) as [Pr W]. inversion Pr; subst. now split. }
    destruct (IH Kl) as (ds & vs & n2 & F & L). { intros j. destruct (J j) as [Pr W]. inversion Pr; subst. now split. }
    exists (d :: ds), (v' :: vs), (n + n2). split; [|cbn; congruence]. cbn [combine]. constructor.
    + split; [eapply trip_later; [exact T|lia]|split; assumption].
    + eapply Forall2_impl; [|exact F]. cbv beta. intros a b (Ta & Rest). split; [eapply trip_later; [exact Ta|lia]|exact Rest].
Qed.

Lemma combine_split_fst : forall A B (l : list A) (r : list B), length l = length r -> map fst (combine l r) = l.
Proof. intros A B. induction l as [|a l IH]; intros [|b r] E; cbn in *; try discriminate; [reflexivity|]. now rewrite IH by lia. Qed.
Lemma combine_split_snd : forall A B (l : list A) (r : list B), length l = length r -> map snd (combine l r) = r.
Proof. intros A B. induction l as [|a l IH]; intros [|b r] E; cbn in *; try discriminate; [reflexivity|]. now rewrite IH by lia. Qed.

Lemma Forall2_map_r : forall A B C (R : A -> C -> Prop) (f : B -> C) l r, Forall2 R l (map f r) <-> Forall2 (fun x y => R x (f y)) l r.
Proof.
  intros A B C R f. split.
  - revert l. induction r as [|b r IH]; intros l F; cbn in F; inversion F; subst; constructor; auto.
  - intros F. induction F; cbn; constructor; auto.
Qed.
Lemma Forall2_map_l : forall A B C (R : C -> B -> Prop) (f : A -> C) l r, Forall2 R (map f l) r <-> Forall2 (fun x y => R (f x) y) l r.
Proof.
  intros A B C R f. split.
  - revert r. induction l as [|b l IH]; intros r F; cbn in F; inversion F; subst; constructor; auto.
  - intros F. induction F; cbn; constructor; auto.
Qed.
Lemma Forall2_self : forall A (R : A -> A -> Prop) l, Forall (fun x => R x x) l -> Forall2 R l l.
Proof. intros A R l F. induction F; constructor; auto. Qed.

Lemma read_list : forall t l ds vs n, Forall2 (fun v dv => trip t v (fst dv) (snd dv) n /\ has_type shape (snd dv) t /\ sim (snd dv) v) l (combine ds vs) ->
  length ds = length vs -> forall m, n <= m ->
  rall (map (serialize m t) l) = Ok ds /\ rall (map (deserialize m t) (map img ds)) = Ok vs /\ Forall (fun v => has_type shape v t) vs /\ Forall2 sim vs l.
Proof.
  intros t l ds vs n F L m Hm. repeat apply conj.
  - apply rall_ok. rewrite <- (combine_split_fst _ _ ds vs L). apply Forall2_map_r. eapply Forall2_impl; [|exact F]. cbv beta. intros a b (T & _). now apply T.
  - rewrite map_map. apply rall_ok. rewrite <- (combine_split_fst _ _ ds vs L) at 1. rewrite <- (combine_split_snd _ _ ds vs L) at 2.
    apply Forall2_map_l, Forall2_map_r, Forall2_self. clear L. induction F as [|a b l c (T & _) F IH]; constructor; [now apply T|exact IH].
  - rewrite <- (combine_split_snd _ _ ds vs L). rewrite Forall_map. clear L. induction F as [|a b l c (_ & T & _) F IH]; constructor; assumption.
  - rewrite <- (combine_split_snd _ _ ds vs L). apply Forall2_map_l. clear L. induction F as [|a b l c (_ & _ & T) F IH]; constructor; assumption.
Qed.

(** Lists of values of different types. *)
Lemma back_fields : forall ts l, Forall2 (fun v t => back v t) l ts -> Forall keyed l -> (json = true -> Forall proper l /\ Forall (without_data closed) ts) ->
  exists ds vs n, Forall2 (fun vt dv => trip (snd vt) (fst vt) (fst dv) (snd dv) n) (combine l ts) (combine ds vs) /\ length ds = length ts /\ length vs = length ts /\
    Forall2 (has_type shape) vs ts /\ Forall2 sim vs l.
Proof.
  intros ts l H. induction H as [|v t l ts Hv H IH]; intros K J.
  - exists [], [], 0. repeat split; constructor.
  - inversion K as [|? ? Kv Kl]; subst. destruct (Hv Kv) as (d & v' & n & T & Ht & S).
    { intros j. destruct (J j) as [Pr W]. inversion Pr; inversion W; subst. now split. }
    destruct (IH Kl) as (ds & vs & n2 & F & L1 & L2 & F2 & F3). { intros j. destruct (J j) as [Pr W]. inversion Pr; inversion W; subst. now split. }
    exists (d :: ds), (v' :: vs), (n + n2). cbn [combine]. split; [|repeat split; cbn; try congruence; constructor; assumption]. constructor.
    + eapply trip_later; [exact T|lia].
    + eapply Forall2_impl; [|exact F]. cbv beta. intros a b Ta. eapply trip_later; [exact Ta|lia].
Qed.

Lemma same_sim_plain : forall v v', sim v' v -> plain v -> v' = v.
Proof.
  apply (val_ind' (fun v => forall v', sim v' v -> plain v -> v' = v)).
  1-6,9: intros; match goal with H : sim _ _ |- _ => inversion H; subst; auto end.
  - intros l IH v' S Pl. inversion S as [|l' r' F| | | |]; subst; [reflexivity|]. inversion Pl as [| | | | | |? Fp| | |]; subst. f_equal.
    clear S Pl. induction F as [|a b l' l E F IHF]; [reflexivity|]. inversion IH; inversion Fp; subst. f_equal; auto.
  - intros l IH v' S Pl. inversion S as [| |l' r' F| | |]; subst; [reflexivity|]. inversion Pl as [| | | | | | |? Fp| |]; subst. f_equal.
    clear S Pl. induction F as [|a b l' l E F IHF]; [reflexivity|]. inversion IH; inversion Fp; subst. f_equal; auto.
  - intros t v IH v' S Pl. inversion S as [| | |t' a' b' S'| |]; subst; [reflexivity|]. inversion Pl; subst. repeat f_equal. auto.
  - intros l _ v' _ Pl. inversion Pl.
  - intros l _ v' _ Pl. inversion Pl.
Qed.

(** Only values of a unit type are written as unit. *)
Lemma unit_written : (forall n, closed n -> without_data closed (shape n)) -> forall m t v, has_type shape v t -> without_data closed t -> serialize m t v = Ok Unit -> deserialize m t Unit = Ok SUnit /\ v = SUnit.
Proof.
  intros Hc. induction m as [|m IH]; intros t v H W E; [discriminate|]. inversion H; subst; cbn [SerdeModel.serialize] in E; try discriminate.
  - cbn. auto.
  - inversion W.
  - destruct (rall _) as [x| | |]; discriminate.
  - destruct (zip _ _); [|discriminate]. destruct (rall _) as [x| | |]; discriminate.
  - destruct (zip _ _); [|discriminate]. destruct (rall _) as [x| | |]; discriminate.
  - destruct (entry_named tag alts) as [[]|]; discriminate.
  - destruct (entry_named tag alts) as [[]|]; try discriminate; destruct (serialize m _ v0); discriminate.
  - destruct (rall _) as [x| | |]; discriminate.
  - destruct (rall _) as [x| | |]; discriminate.
  - cbn [SerdeModel.deserialize]. apply IH; [assumption| |exact E]. inversion W; subst. now apply Hc.
Qed.

Lemma img_array : forall l, img (Array l) = Array (map img l).
Proof. intros l. unfold img. destruct json; [reflexivity|now rewrite map_id]. Qed.

Lemma img_tuple : forall l, to_tuple (img (Tuple l)) = Ok (map img l).
Proof. intros l. unfold img. destruct json; [reflexivity|now rewrite map_id]. Qed.

Lemma img_set : forall l, img (DSet l) = Array (map img l) \/ img (DSet l) = DSet (map img l).
Proof. intros l. unfold img. destruct json; [now left|right; now rewrite map_id]. Qed.

Lemma img_rec : forall l, img (Rec l) = Rec (map (fun e => (fst e, img (snd e))) l).
Proof. intros l. unfold img. destruct json; [reflexivity|]. f_equal. rewrite <- (map_id l) at 1. apply map_ext. now intros []. Qed.

Lemma seq_combine_at : forall A (l : list A) (f : nat -> A -> Prop), (forall i a, nth_error l i = Some a -> f i a) ->
  Forall (fun x => f (fst x) (snd x)) (combine (seq 0 (length l)) l).
Proof.
  intros A l f H. assert (G : forall k, (forall i a, nth_error l i = Some a -> f (k + i) a) -> Forall (fun x => f (fst x) (snd x)) (combine (seq k (length l)) l)).
  { clear H. induction l as [|a l IH]; intros k H; [constructor|]. cbn. constructor.
    - cbn. rewrite <- (Nat.add_0_r k). now apply H.
    - apply IH. intros i b E. replace (S k + i) with (k + S i) by lia. now apply H. }
  now apply (G 0).
Qed.

Lemma read_tuple_elements : forall m ts ds vs l, Forall2 (fun vt dv => serialize m (snd vt) (fst vt) = Ok (fst dv) /\ deserialize m (snd vt) (img (fst dv)) = Ok (snd dv))
  (combine l ts) (combine ds vs) -> length l = length ts -> length ds = length ts -> length vs = length ts ->
  rall (map (fun x => rbind (at_index (map img ds) (fst x)) (deserialize m (snd x))) (combine (seq 0 (length ts)) ts)) = Ok vs.
Proof.
  intros m ts ds vs l F L1 L2 L3. apply rall_ok.
  assert (G : forall pre, Forall2 (fun x y => rbind (at_index (pre ++ map img ds) (fst x)) (deserialize m (snd x)) = Ok y) (combine (seq (length pre) (length ts)) ts) vs).
  { revert ds vs l F L1 L2 L3. induction ts as [|t ts IH]; intros ds vs l F L1 L2 L3 pre.
    - destruct vs; [constructor|discriminate].
    - destruct l as [|x l], ds as [|d ds], vs as [|v vs]; try discriminate. cbn [combine] in F. inversion F as [|? ? ? ? [_ E] F']; subst. cbn [fst snd] in E.
      cbn [length seq combine]. constructor.
      + cbn [fst snd]. unfold at_index. rewrite nth_error_app2 by lia. rewrite Nat.sub_diag. cbn [map nth_error rbind]. exact E.
      + specialize (IH ds vs l F'). cbn in L1, L2, L3. specialize (IH ltac:(lia) ltac:(lia) ltac:(lia) (pre ++ [img d])).
        rewrite app_length in IH. cbn [length] in IH. rewrite Nat.add_1_r in IH. rewrite <- app_assoc in IH. exact IH. }
  exact (G []).
Qed.

Lemma Forall2_combine_in : forall A B (R : A -> B -> Prop) l r, Forall2 R l r -> forall a b, In (a, b) (combine l r) -> R a b.
Proof. intros A B R l r F. induction F as [|x y l r E F IH]; intros a b I; [destruct I|]. destruct I as [[= -> ->]|I]; auto. Qed.

Lemma back_all : forall v t, has_type shape v t -> back v t.
Proof.
  apply (has_type_ind' shape back); unfold back.
  - intros _ _. exists Unit, SUnit, 1. split; [|split; constructor]. intros m Hm. destruct m; [lia|]. cbn. unfold img. destruct json; auto.
  - intros b _ _. exists (Bool b), (SBool b), 1. split; [|split; constructor]. intros m Hm. destruct m; [lia|]. cbn. unfold img. destruct json; auto.
  - intros i _ _. exists (Int i), (SInt i), 1. split; [|split; constructor]. intros m Hm. destruct m; [lia|]. cbn. unfold img. destruct json; auto.
  - intros x _ J. exists (Float x), (SFloat x), 1. split; [|split; constructor]. intros m Hm. destruct m; [lia|]. split; [reflexivity|]. unfold img.
    destruct json eqn:j; [|reflexivity]. cbn [json_image]. destruct (whole x) as [i|] eqn:E; [|reflexivity]. cbn [SerdeModel.deserialize].
    destruct (J eq_refl) as [[V Z] _]. cbn in V, Z. inversion V; inversion Z; subst. now rewrite (Hwhole eq_refl x i).
  - intros s _ _. exists (Str s), (SString s), 1. split; [|split; constructor]. intros m Hm. destruct m; [lia|]. cbn. unfold img. destruct json; auto.
  - intros d _ J. exists d, (SData d), 1. split; [|split; constructor]. intros m Hm. destruct m; [lia|]. split; [reflexivity|]. unfold img.
    destruct json eqn:j; [|reflexivity]. destruct (J eq_refl) as [_ W]. inversion W.
  - intros t l IH K J. inversion K; subst. destruct (back_list t l IH) as (ds & vs & n & F & L); [assumption| |].
    { intros j. destruct (J j) as [Pr W]. inversion W; subst. split; [now apply proper_array|assumption]. }
    exists (Array ds), (SArray vs), (S n). destruct (read_list _ _ _ _ _ F L n (le_n n)) as (_ & _ & Ht & S). split; [|split; now constructor].
    intros m Hm. destruct m; [lia|]. destruct (read_list _ _ _ _ _ F L m ltac:(lia)) as (E1 & E2 & _ & _).
    rewrite img_array. cbn [SerdeModel.serialize SerdeModel.deserialize]. rewrite E1, E2. split; reflexivity.
  - intros ts l IH K J. inversion K; subst. destruct (back_fields ts l IH) as (ds & vs & n & F & L1 & L2 & Ht & S); [assumption| |].
    { intros j. destruct (J j) as [Pr W]. inversion W; subst. split; [now apply proper_tuple|assumption]. }
    exists (Tuple ds), (STuple vs), (Datatypes.S n). split; [|split; now constructor].
    assert (L : length l = length ts) by (now apply Forall2_length in IH).
    intros m Hm. destruct m; [lia|].
    assert (F' : Forall2 (fun vt dv => serialize m (snd vt) (fst vt) = Ok (fst dv) /\ deserialize m (snd vt) (img (fst dv)) = Ok (snd dv)) (combine l ts) (combine ds vs)).
    { eapply Forall2_impl; [|exact F]. cbv beta. intros a b T. apply T. lia. }
    assert (E2 := read_tuple_elements m ts ds vs l F' L L1 L2).
    assert (E1 : rall (map (fun x => serialize m (fst x) (snd x)) (combine ts l)) = Ok ds).
    { apply rall_ok. clear - F' L L1 L2. revert l ds vs F' L L1 L2. induction ts as [|t ts IH]; intros [|v l] [|d ds] [|v' vs] F L L1 L2; try discriminate; [constructor|].
      cbn [combine] in *. inversion F as [|? ? ? ? [E _] F2]; subst. constructor; [exact E|]. apply IH with (vs := vs); [exact F2|cbn in *; lia..]. }
    split.
    + cbn [SerdeModel.serialize]. rewrite zip_combine by congruence. rewrite E1. reflexivity.
    + cbn [SerdeModel.deserialize]. rewrite img_tuple. cbn [rbind]. rewrite E2. reflexivity.
  - intros fs l D IH K J. inversion K; subst. destruct (back_fields (map snd fs) l IH) as (ds & vs & n & F & L1 & L2 & Ht & S); [assumption| |].
    { intros j. destruct (J j) as [Pr W]. inversion W; subst. split; [now apply proper_tuple|]. rewrite Forall_map. assumption. }
    rewrite map_length in L1, L2.
    exists (Rec (combine (map fst fs) ds)), (STuple vs), (Datatypes.S n). split; [|split; now constructor].
    assert (L : length l = length fs). { apply Forall2_length in IH. now rewrite map_length in IH. }
    intros m Hm. destruct m; [lia|].
    assert (F' : Forall2 (fun vt dv => serialize m (snd vt) (fst vt) = Ok (fst dv) /\ deserialize m (snd vt) (img (fst dv)) = Ok (snd dv)) (combine l (map snd fs)) (combine ds vs)).
    { eapply Forall2_impl; [|exact F]. cbv beta. intros a b T. apply T. lia. }
    split.
    + cbn [SerdeModel.serialize]. rewrite zip_combine by congruence.
      assert (E1 : rall (map (fun x => rbind (serialize m (snd (fst x)) (snd x)) (fun d => Ok (fst (fst x), d))) (combine fs l)) = Ok (combine (map fst fs) ds)).
      { apply rall_ok. clear - F' L L1 L2. revert l ds vs F' L L1 L2. induction fs as [|[nm t] fs IH]; intros [|v l] [|d ds] [|v' vs] F L L1 L2; try discriminate; [constructor|].
        cbn [combine map fst snd] in *. inversion F as [|? ? ? ? [E _] F2]; subst. constructor; [cbn [fst snd] in *; now rewrite E|]. apply IH with (vs := vs); [exact F2|cbn in *; lia..]. }
      rewrite E1. reflexivity.
    + cbn [SerdeModel.deserialize]. rewrite img_rec. cbn [to_record rbind].
      assert (E2 : rall (map (fun x => rbind (expect_entry (map (fun e => (fst e, img (snd e))) (combine (map fst fs) ds)) (fst x)) (deserialize m (snd x))) fs) = Ok vs).
      { apply rall_ok.
        assert (Dn : NoDup (map fst (map (fun e => (fst e, img (snd e))) (combine (map fst fs) ds)))).
        { rewrite map_map. cbn [fst]. replace (map (fun x => fst x) (combine (map fst fs) ds)) with (map fst (combine (map fst fs) ds)) by reflexivity.
          rewrite combine_split_fst; [exact D|]. rewrite map_length. congruence. }
        set (all := map (fun e => (fst e, img (snd e))) (combine (map fst fs) ds)) in *.
        assert (Sub : forall nm d, In (nm, d) (combine (map fst fs) ds) -> In (nm, img d) all).
        { intros nm d I. unfold all. apply (in_map (fun e => (fst e, img (snd e)))) in I. exact I. }
        clearbody all. clear - F' L L1 L2 Dn Sub. revert l ds vs F' L L1 L2 Sub. induction fs as [|[nm t] fs IH]; intros [|v l] [|d ds] [|v' vs] F L L1 L2 Sub; try discriminate; [constructor|].
        cbn [combine map fst snd] in *. inversion F as [|? ? ? ? [_ E] F2]; subst. constructor.
        - cbn [fst snd] in *. unfold expect_entry. rewrite (entry_named_in _ all nm (img d)); [exact E|exact Dn|]. apply Sub. now left.
        - apply IH with (ds := ds) (l := l); [exact F2|cbn in *; lia..|]. intros nm' d' I. apply Sub. now right. }
      rewrite E2. reflexivity.
  - intros alts tag D I _ _. exists (Variant_ tag Unit), (SVariant tag None), 1. split; [|split; [now constructor|constructor]].
    intros m Hm. destruct m; [lia|]. cbn [SerdeModel.serialize SerdeModel.deserialize]. rewrite (entry_named_in _ alts tag TUnit D I). split; [reflexivity|].
    unfold img. destruct json; cbn; now rewrite (entry_named_in _ alts tag TUnit D I).
  - intros alts tag t v D I Nu Hv IH K J. inversion K; subst. destruct IH as (d & v' & n & T & Ht & S); [assumption| |].
    { intros j. destruct (J j) as [Pr W]. inversion W as [| | | | | | | |? FW| | |]; subst. split; [now apply proper_variant in Pr|]. rewrite Forall_forall in FW. apply (FW _ I). }
    exists (Variant_ tag d), (SVariant tag (Some v')), (Datatypes.S n). split; [|split; [eapply ht_variant; eassumption|now constructor]].
    intros m Hm. destruct m; [lia|]. destruct (T m ltac:(lia)) as [E1 E2]. cbn [SerdeModel.serialize SerdeModel.deserialize]. rewrite (entry_named_in _ alts tag t D I).
    split; [destruct t; try congruence; now rewrite E1|].
    assert (Z : forall p, deserialize m t p = Ok v' -> match t with TUnit => Ok (SVariant tag None) | _ => rbind (deserialize m t p) (fun x => Ok (SVariant tag (Some x))) end = Ok (SVariant tag (Some v'))).
    { intros p E. destruct t; try congruence; now rewrite E. }
    unfold img in *. destruct json eqn:j.
    + destruct (J eq_refl) as [Pr W]. inversion W as [| | | | | | | |? FW| | |]; subst. rewrite Forall_forall in FW. specialize (FW _ I). cbn [snd] in FW.
      assert (Zu : d = Unit -> deserialize m t Unit = Ok v').
      { intros ->. destruct (unit_written (Hclosed eq_refl) m t v Hv FW E1) as [E3 ->]. rewrite E3. f_equal. inversion S; reflexivity. }
      destruct d; cbn [json_image to_variant expect_entry entry_named rbind to_str fst snd] in *; unfold expect_entry; cbn [entry_named name_eqb];
        rewrite ?name_eqb_refl; cbn; rewrite (entry_named_in _ alts tag t D I); apply Z; auto.
    + cbn [to_variant rbind fst snd]. rewrite (entry_named_in _ alts tag t D I). now apply Z.
  - intros t l IH K J. inversion K as [| | | | | | | | | |? Kl Pl Dl|]; subst. destruct (back_list t l IH) as (ds & vs & n & F & L); [assumption| |].
    { intros j. destruct (J j) as [Pr W]. inversion W; subst. now split. }
    destruct (read_list _ _ _ _ _ F L n (le_n n)) as (_ & _ & Ht & S).
    destruct (collect_set_ok vs) as (ws & Ec & P).
    { clear - S Pl. induction S as [|a b l r E S IHS]; inversion Pl; subst; constructor; [now apply (sim_equal b a)|auto]. }
    { eapply fop_forall2 with (S := fun x y => key_eqb x y = false) (T := fun a b => sim a b /\ proper b); [| |exact Dl].
      - clear - S Pl. induction S as [|a b l r E S IHS]; inversion Pl; subst; constructor; auto.
      - cbv beta. intros a b x y [S1 P1] [S2 P2] E. unfold key_eqb in *. destruct (sim_equal x a S1 P1), (sim_equal y b S2 P2). now rewrite (good_eqv_cong _ _ (erase x) (erase y)). }
    exists (DSet ds), (SSet ws), (Datatypes.S n). split; [|split].
    + intros m Hm. destruct m; [lia|]. destruct (read_list _ _ _ _ _ F L m ltac:(lia)) as (E1 & E2 & _ & _).
      cbn [SerdeModel.serialize SerdeModel.deserialize]. rewrite E1. split; [reflexivity|]. destruct (img_set ds) as [-> | ->]; rewrite E2; cbn [rbind]; now rewrite Ec.
    + constructor. eapply Permutation_Forall; [apply Permutation_sym; exact P|exact Ht].
    + now apply sim_set with (p := vs).
  - intros k t l IH K J. inversion K as [| | | | | | | | | | |? Kl Pl Dl]; subst.
    assert (X : exists ds vs n, length ds = length vs /\ Forall2 (fun e dv => trip k (fst e) (fst (fst dv)) (fst (snd dv)) n /\ trip t (snd e) (snd (fst dv)) (snd (snd dv)) n /\
        (has_type shape (fst (snd dv)) k /\ has_type shape (snd (snd dv)) t) /\ sim (fst (snd dv)) (fst e) /\ sim (snd (snd dv)) (snd e)) l (combine ds vs)).
    { assert (J' : json = true -> Forall (fun e => proper (fst e) /\ proper (snd e)) l /\ without_data closed k /\ without_data closed t).
      { intros j. destruct (J j) as [Pr W]. inversion W; subst. split; [now apply proper_map|now split]. }
      clear - IH Kl J'. induction IH as [|e l [H1 H2] IH IHl]; [exists [], [], 0; split; [reflexivity|constructor]|].
      inversion Kl as [|? ? [K1 K2] Kl']; subst. destruct IHl as (ds & vs & n & L & F); [assumption| |].
      { intros j. destruct (J' j) as (Pr & W). inversion Pr; subst. now split. }
      destruct (H1 K1) as (d1 & v1 & n1 & T1 & Ht1 & S1). { intros j. destruct (J' j) as (Pr & W1 & W2). inversion Pr as [|? ? [? ?] ?]; subst. now split. }
      destruct (H2 K2) as (d2 & v2 & n2 & T2 & Ht2 & S2). { intros j. destruct (J' j) as (Pr & W1 & W2). inversion Pr as [|? ? [? ?] ?]; subst. now split. }
      exists ((d1, d2) :: ds), ((v1, v2) :: vs), (n + n1 + n2). split; [cbn; congruence|]. cbn [combine]. constructor.
      - cbn [fst snd]. repeat apply conj; try assumption; eapply trip_later; try eassumption; lia.
      - eapply Forall2_impl; [|exact F]. cbv beta. intros a b (Ta & Tb & Rest). split; [eapply trip_later; [exact Ta|lia]|]. split; [eapply trip_later; [exact Tb|lia]|exact Rest]. }
    destruct X as (ds & vs & n & L & F).
    assert (S : Forall2 (fun a b => sim (fst a) (fst b) /\ sim (snd a) (snd b)) vs l).
    { rewrite <- (combine_split_snd _ _ ds vs L). apply Forall2_map_l. clear - F. induction F as [|a b l c (_ & _ & _ & T) F IH]; constructor; assumption. }
    assert (Ht : Forall (fun e => has_type shape (fst e) k /\ has_type shape (snd e) t) vs).
    { rewrite <- (combine_split_snd _ _ ds vs L). rewrite Forall_map. clear - F. induction F as [|a b l c (_ & _ & T & _) F IH]; constructor; assumption. }
    destruct (collect_map_ok vs) as (ws & Ec & P).
    { clear - S Pl. induction S as [|a b l r E S IHS]; inversion Pl; subst; constructor; [now apply (sim_equal (fst b) (fst a))|auto]. }
    { eapply fop_forall2 with (S := fun x y => key_eqb (fst x) (fst y) = false) (T := fun a b => sim (fst a) (fst b) /\ proper (fst b)); [| |exact Dl].
      - clear - S Pl. induction S as [|a b l r [E _] S IHS]; inversion Pl; subst; constructor; auto.
      - cbv beta. intros a b x y [S1 P1] [S2 P2] E. unfold key_eqb in *. destruct (sim_equal _ _ S1 P1), (sim_equal _ _ S2 P2). now rewrite (good_eqv_cong _ _ (erase (fst x)) (erase (fst y))). }
    exists (DMap ds), (SMap ws), (Datatypes.S n). split; [|split].
    + intros m Hm. destruct m; [lia|]. cbn [SerdeModel.serialize SerdeModel.deserialize].
      assert (E1 : rall (map (fun e => rpair (serialize m k (fst e)) (serialize m t (snd e))) l) = Ok ds).
      { apply rall_ok. rewrite <- (combine_split_fst _ _ ds vs L). apply Forall2_map_r. eapply Forall2_impl; [|exact F]. cbv beta. intros a b (T1 & T2 & _).
        destruct (T1 m ltac:(lia)) as [-> _], (T2 m ltac:(lia)) as [-> _]. cbn. now destruct (fst b). }
      rewrite E1. split; [reflexivity|].
      assert (E2 : Forall2 (fun d v => deserialize m k (img (fst d)) = Ok (fst v) /\ deserialize m t (img (snd d)) = Ok (snd v)) ds vs).
      { rewrite <- (combine_split_fst _ _ ds vs L) at 1. rewrite <- (combine_split_snd _ _ ds vs L) at 2. apply Forall2_map_l, Forall2_map_r, Forall2_self.
        clear - F Hm. induction F as [|a b l c (T1 & T2 & _) F IH]; constructor; [|exact IH]. split; [apply T1; lia|apply T2; lia]. }
      unfold img in *. destruct json; cbn [json_image].
      * rewrite map_map. rewrite (rall_ok _ _ _ ds vs); [cbn [rbind]; now rewrite Ec|]. eapply Forall2_impl; [|exact E2]. cbv beta. intros a b [Ea Eb].
        cbn [to_tuple rbind at_index nth_error]. unfold at_index. cbn [nth_error rbind]. rewrite Ea, Eb. cbn. now destruct b.
      * rewrite (rall_ok _ _ _ ds vs); [cbn [rbind]; now rewrite Ec|]. eapply Forall2_impl; [|exact E2]. cbv beta. intros a b [Ea Eb].
        rewrite Ea, Eb. cbn. now destruct b.
    + constructor. eapply Permutation_Forall; [apply Permutation_sym; exact P|exact Ht].
    + now apply sim_map with (p := vs).
  - intros n v IH K J. destruct IH as (d & v' & n0 & T & Ht & S); [assumption| |].
    { intros j. destruct (J j) as [Pr W]. inversion W; subst. split; [assumption|now apply Hclosed]. }
    exists d, v', (Datatypes.S n0). split; [|split; [now constructor|exact S]]. intros m Hm. destruct m; [lia|]. cbn [SerdeModel.serialize SerdeModel.deserialize]. apply T. lia.
Qed.
End Round.
