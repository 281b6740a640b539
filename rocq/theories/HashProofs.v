From Coq Require Import NArith ZArith List Bool Arith Lia.
From Coq Require Import Sorting.Permutation.
From Verif Require Import HashTabModel HashTabSpec HashTabProofs HashModel HashSpec.
Import ListNotations.
Open Scope N_scope.

Local Arguments mix_word : simpl never.
Local Arguments final_mix : simpl never.
Local Opaque mix_word final_mix hasher_new tag_hash_set tag_hash_map.

(** ** Unordered hashing *)
Lemma unordered_add_comm : forall u x y, unordered_add (unordered_add u x) y = unordered_add (unordered_add u y) x.
Proof.
  intros [[s r] c] x y. unfold unordered_add, w64. assert (H64 : 2 ^ 64 <> 0) by discriminate.
  rewrite !(N.add_mod_idemp_l _ _ (2 ^ 64)) by auto. rewrite !N.lxor_assoc, (N.lxor_comm x y).
  rewrite <- !N.add_assoc, (N.add_comm x y). auto.
Qed.

Lemma unordered_perm : forall l l', Permutation l l' -> forall u, fold_left unordered_add l u = fold_left unordered_add l' u.
Proof.
  induction 1; intros u; cbn [fold_left]; auto.
  - rewrite unordered_add_comm. auto.
  - rewrite IHPermutation1. auto.
Qed.

Lemma collection_hash_perm : forall tag l l' n st, Permutation l l' -> collection_hash tag l n st = collection_hash tag l' n st.
Proof. intros. unfold collection_hash. rewrite (unordered_perm l l'); auto. Qed.

Lemma unordered_order : forall l l', Permutation l l' ->
  unordered_finish (fold_left unordered_add l unordered_new) = unordered_finish (fold_left unordered_add l' unordered_new).
Proof. intros. rewrite (unordered_perm l l'); auto. Qed.

Local Opaque collection_hash.

(** ** Matchings *)
Lemma matching : forall (X Y : Type) (R : X -> Y -> Prop) (h : X -> N) (g : Y -> N) (l : list X) (r : list Y),
  length l = length r -> ForallOrdPairs (fun x x' => forall y, In y r -> R x y -> R x' y -> False) l ->
  (forall x, In x l -> exists y, In y r /\ R x y) -> (forall x y, In x l -> In y r -> R x y -> h x = g y) ->
  Permutation (map h l) (map g r) /\ forall y, In y r -> exists x, In x l /\ R x y.
Proof.
  intros X Y R h g. induction l as [|x l IH]; intros r HL D HM HH; simpl in HL.
  - destruct r; [|discriminate]. split; [constructor|]. intros y [].
  - inversion D as [|? ? F1 D1]; subst. rewrite Forall_forall in F1.
    destruct (HM x (or_introl eq_refl)) as (y & Hy & Rxy). pose proof Hy as Hy'. apply in_split in Hy as (r1 & r2 & ->).
    assert (SUB : forall z, In z (r1 ++ r2) -> In z (r1 ++ y :: r2)).
    { intros z Hz. apply in_app_iff in Hz as [|]; apply in_app_iff; simpl; auto. }
    rewrite app_length in HL. simpl in HL. destruct (IH (r1 ++ r2)) as [IP IM].
    + rewrite app_length. lia.
    + clear - D1 SUB. induction D1; constructor; auto. eapply Forall_impl; [|exact H]. simpl. intros b Hb z Hz. apply Hb. auto.
    + intros z Hz. destruct (HM z (or_intror Hz)) as (w & Hw & Rzw). exists w. split; auto.
      apply in_app_iff in Hw as [Hw|[->|Hw]]; apply in_app_iff; auto. exfalso. eapply F1; eauto.
    + intros. apply HH; simpl; auto.
    + split.
      * simpl. rewrite (HH x y) by (simpl; auto). rewrite IP, !map_app. simpl. apply Permutation_middle.
      * intros z Hz. assert (Z : z = y \/ In z (r1 ++ r2)).
        { apply in_app_iff in Hz as [|[|]]; auto; right; apply in_app_iff; auto. }
        destruct Z as [->|Z]; [exists x; simpl; auto|]. destruct (IM z Z) as (a & Ha & Ra). exists a. simpl. auto.
Qed.

(** ** Collections *)
Lemma set_hash_extensional : forall (K : Type) (keqb : K -> K -> bool) (khash : K -> N), lawful keqb khash ->
  forall ops1 ops2 t1 t2 rs1 rs2, set_run keqb khash tab_new ops1 = Returned (t1, rs1) -> set_run keqb khash tab_new ops2 = Returned (t2, rs2) ->
  set_eq keqb khash t1 t2 = Returned true -> forall st, exists h, set_hash khash t1 st = Returned h /\ set_hash khash t2 st = Returned h.
Proof.
  intros K keqb khash L ops1 ops2 t1 t2 rs1 rs2 H1 H2 HE st. apply set_reach in H1, H2; auto.
  unfold set_eq, collection_eq in HE. destruct (Nat.eqb_spec (tlen t1) (tlen t2)) as [EL|]; [|discriminate].
  simpl in HE. rewrite iterate_ok in HE. simpl in HE. rewrite all_contained_ok with (g := fun e => present keqb (e_key e) (fst (set_spec keqb [] ops2))) in HE.
  2:{ intros. apply set_contains_ok; auto. }
  injection HE as HE. rewrite forallb_forall in HE.
  pose proof (tinv_len _ _ _ _ H1) as L1. pose proof (tinv_len _ _ _ _ H2) as L2. pose proof (tinv_distinct _ _ _ _ H1) as D1.
  destruct (matching _ _ (fun a b : entry K unit => keqb (e_key b) (e_key a) = true) (fun e => khash (e_key e)) (fun e => khash (e_key e))
     (entries (buckets t1)) (entries (buckets t2))) as [P _].
  - congruence.
  - eapply ForallOrdPairs_ind with (P := fun l => ForallOrdPairs _ l); [constructor| |exact D1].
    intros a l F _ IH. constructor; auto. eapply Forall_impl; [|exact F]. simpl. intros b Hb y _ Ha1 Hb1.
    rewrite <- (keqb_trans_l keqb khash L _ _ _ Ha1) in Hb. congruence.
  - intros x Hx. apply HE in Hx. apply (sinv_present keqb khash L t2 _ _ H2) in Hx as (e & He & Hk). eauto.
  - intros x y _ _ E. symmetry. apply (law_hash _ _ L). auto.
  - unfold set_hash. rewrite !iterate_ok. simpl. eexists. split; [reflexivity|]. rewrite EL. rewrite (collection_hash_perm _ _ _ _ _ P). reflexivity.
Qed.

Lemma map_hash_extensional : forall (K V : Type) (keqb : K -> K -> bool) (khash : K -> N) (veqb : V -> V -> bool) (item_hash : K * V -> N),
  lawful keqb khash -> (forall k k' v v', keqb k k' = true -> veqb v v' = true -> item_hash (k, v) = item_hash (k', v')) ->
  forall ops1 ops2 t1 t2 rs1 rs2, map_run keqb veqb khash tab_new ops1 = Returned (t1, rs1) -> map_run keqb veqb khash tab_new ops2 = Returned (t2, rs2) ->
  map_eq keqb khash veqb t1 t2 = Returned true -> forall st, exists h, map_hash item_hash t1 st = Returned h /\ map_hash item_hash t2 st = Returned h.
Proof.
  intros K V keqb khash veqb item_hash L LI ops1 ops2 t1 t2 rs1 rs2 H1 H2 HE st. eapply map_reach in H1, H2; eauto.
  unfold map_eq, collection_eq in HE. destruct (Nat.eqb_spec (tlen t1) (tlen t2)) as [EL|]; [|discriminate].
  simpl in HE. rewrite iterate_ok in HE. simpl in HE.
  set (l2 := fst (map_spec keqb veqb [] ops2)) in *.
  rewrite all_contained_ok with (g := fun e => match lookup keqb (e_key e) l2 with Some w => veqb w (e_val e) | None => false end) in HE.
  2:{ intros. unfold map_contains_key_value. erewrite map_get_ok by eauto. auto. }
  injection HE as HE. rewrite forallb_forall in HE.
  pose proof (tinv_len _ _ _ _ H1) as L1. pose proof (tinv_len _ _ _ _ H2) as L2. pose proof (tinv_distinct _ _ _ _ H1) as D1.
  destruct (matching _ _ (fun a b : entry K V => keqb (e_key b) (e_key a) = true /\ veqb (e_val b) (e_val a) = true)
     (fun e => item_hash (e_key e, e_val e)) (fun e => item_hash (e_key e, e_val e))
     (entries (buckets t1)) (entries (buckets t2))) as [P _].
  - congruence.
  - eapply ForallOrdPairs_ind with (P := fun l => ForallOrdPairs _ l); [constructor| |exact D1].
    intros a l F _ IH. constructor; auto. eapply Forall_impl; [|exact F]. simpl. intros b Hb y _ [Ha1 _] [Hb1 _].
    rewrite <- (keqb_trans_l keqb khash L _ _ _ Ha1) in Hb. congruence.
  - intros x Hx. apply HE in Hx. destruct (find_ok keqb khash L t2 _ (e_key x) H2) as [(i & e & F & Hi & Hk)|[F N]].
    + assert (He : In e (entries (buckets t2))) by (apply entries_In; eauto). exists e. split; auto. split; auto.
      erewrite (lookup_some keqb khash L t2 l2) in Hx; eauto.
    + erewrite (lookup_none keqb khash L t2 l2) in Hx; eauto. discriminate.
  - intros x y _ _ [E1 E2]. symmetry. apply LI; auto.
  - unfold map_hash. rewrite !iterate_ok. simpl. eexists. split; [reflexivity|]. rewrite EL. rewrite (collection_hash_perm _ _ _ _ _ P). reflexivity.
Qed.

(** ** Induction on values *)
Section ValueInd.
Context (P : value -> Prop).
Context (Hunit : P VUnit) (Hbool : forall b, P (VBool b)) (Hint : forall z, P (VInt z)) (Hfloat : forall b, P (VFloat b))
  (Hstring : forall s, P (VString s)) (Htuple : forall l, Forall P l -> P (VTuple l)) (Harray : forall l, Forall P l -> P (VArray l))
  (Htag : forall t, P (VVariant t None)) (Hvar : forall t p, P p -> P (VVariant t (Some p)))
  (Hset : forall l, Forall P l -> P (VSet l)) (Hmap : forall l, Forall (fun p => P (fst p) /\ P (snd p)) l -> P (VMap l)).
Fixpoint value_ind' (v : value) : P v :=
  match v with
  | VUnit => Hunit
  | VBool b => Hbool b
  | VInt z => Hint z
  | VFloat b => Hfloat b
  | VString s => Hstring s
  | VTuple l => Htuple l ((fix go l := match l return Forall P l with [] => Forall_nil _ | x :: r => Forall_cons x (value_ind' x) (go r) end) l)
  | VArray l => Harray l ((fix go l := match l return Forall P l with [] => Forall_nil _ | x :: r => Forall_cons x (value_ind' x) (go r) end) l)
  | VVariant t None => Htag t
  | VVariant t (Some p) => Hvar t p (value_ind' p)
  | VSet l => Hset l ((fix go l := match l return Forall P l with [] => Forall_nil _ | x :: r => Forall_cons x (value_ind' x) (go r) end) l)
  | VMap l => Hmap l ((fix go l := match l return Forall (fun p => P (fst p) /\ P (snd p)) l with
                                  | [] => Forall_nil _
                                  | (k, w) :: r => Forall_cons (k, w) (conj (value_ind' k) (value_ind' w)) (go r) end) l)
  end.
End ValueInd.

(** ** Fuel *)
Lemma depth_pos : forall v, (1 <= depth v)%nat.
Proof. destruct v; simpl; try lia. destruct payload; lia. Qed.

Lemma list_max_in : forall l x, In x l -> (x <= list_max l)%nat.
Proof. intros l x H. pose proof (proj1 (list_max_le l (list_max l)) (le_n _)) as F. rewrite Forall_forall in F. auto. Qed.

Lemma forallb2_ext : forall A (f g : A -> A -> bool) l r, (forall x y, In x l -> In y r -> f x y = g x y) -> forallb2 f l r = forallb2 g l r.
Proof. induction l; destruct r; simpl; intros; auto. rewrite H by auto. f_equal. apply IHl. auto. Qed.
Lemma forallb_ext_in : forall A (f g : A -> bool) l, (forall x, In x l -> f x = g x) -> forallb f l = forallb g l.
Proof. induction l; simpl; intros; auto. rewrite H by auto. f_equal. auto. Qed.
Lemma existsb_ext_in : forall A (f g : A -> bool) l, (forall x, In x l -> f x = g x) -> existsb f l = existsb g l.
Proof. induction l; simpl; intros; auto. rewrite H by auto. f_equal. auto. Qed.
Lemma find_ext_in : forall A (f g : A -> bool) l, (forall x, In x l -> f x = g x) -> find f l = find g l.
Proof. induction l; simpl; intros; auto. rewrite H by auto. destruct (g a); auto. Qed.

Lemma depth_in : forall l x, In x l -> (depth x <= list_max (map depth l))%nat.
Proof. intros. apply list_max_in, in_map. auto. Qed.
Lemma depth_in_map : forall l (p : value * value), In p l ->
  (depth (fst p) <= list_max (map (fun p => match p with (k, w) => Nat.max (depth k) (depth w) end) l))%nat /\
  (depth (snd p) <= list_max (map (fun p => match p with (k, w) => Nat.max (depth k) (depth w) end) l))%nat.
Proof.
  intros l p H. assert (X : (Nat.max (depth (fst p)) (depth (snd p)) <= list_max (map (fun p => match p with (k, w) => Nat.max (depth k) (depth w) end) l))%nat).
  { apply list_max_in. apply in_map_iff. exists p. split; auto. destruct p; auto. }
  lia.
Qed.

Lemma fuel_irrel : forall n m a b, (Nat.max (depth a) (depth b) <= n)%nat -> (Nat.max (depth a) (depth b) <= m)%nat -> eqvn n a b = eqvn m a b.
Proof.
  induction n as [|n IH]; intros m a b Hn Hm; [pose proof (depth_pos a); lia|].
  destruct m as [|m]; [pose proof (depth_pos a); lia|].
  destruct a, b; try reflexivity.
  - simpl in *. apply forallb2_ext. intros x y Hx Hy. apply depth_in in Hx, Hy. apply IH; lia.
  - simpl in *. f_equal. apply forallb2_ext. intros x y Hx Hy. apply depth_in in Hx, Hy. apply IH; lia.
  - simpl in *. f_equal. destruct payload, payload0; auto. apply IH; lia.
  - simpl in *. f_equal. apply forallb_ext_in. intros x Hx. apply existsb_ext_in. intros y Hy. f_equal. apply depth_in in Hx, Hy. apply IH; lia.
  - simpl in *. f_equal. apply forallb_ext_in. intros x Hx.
    assert (E : find (fun q => (value_hash (fst q) =? value_hash (fst x)) && eqvn n (fst q) (fst x)) l0 =
                find (fun q => (value_hash (fst q) =? value_hash (fst x)) && eqvn m (fst q) (fst x)) l0).
    { apply find_ext_in. intros y Hy. f_equal. apply depth_in_map in Hx, Hy. destruct Hx, Hy. apply IH; lia. }
    rewrite E. clear E. destruct (find _ _) as [q|] eqn:F; auto. apply List.find_some in F as [F _]. apply depth_in_map in Hx, F. destruct Hx, F. apply IH; lia.
Qed.

Lemma eqv_fuel : forall n a b, (Nat.max (depth a) (depth b) <= n)%nat -> eqvn n a b = eqv a b.
Proof. intros. apply fuel_irrel; auto. Qed.

(** Unfolding equations. *)
Lemma eqv_step : forall a b, eqv a b =
      match a, b with
      | VUnit, VUnit => true
      | VBool x, VBool y => Bool.eqb x y
      | VInt x, VInt y => (x =? y)%Z
      | VFloat x, VFloat y => float_eqb x y
      | VString x, VString y => bytes_eqb x y
      | VTuple l, VTuple r => forallb2 eqv l r
      | VArray l, VArray r => (length l =? length r)%nat && forallb2 eqv l r
      | VVariant s p, VVariant t q =>
          bytes_eqb s t && match p, q with None, None => true | Some x, Some y => eqv x y | _, _ => false end
      | VSet l, VSet r =>
          (length l =? length r)%nat &&
          forallb (fun x => existsb (fun y => (value_hash y =? value_hash x) && eqv y x) r) l
      | VMap l, VMap r =>
          (length l =? length r)%nat &&
          forallb (fun p => match find (fun q => (value_hash (fst q) =? value_hash (fst p)) && eqv (fst q) (fst p)) r with
                            | Some q => eqv (snd q) (snd p)
                            | None => false
                            end) l
      | _, _ => false
      end.
Proof.
  intros a b. rewrite <- (eqv_fuel (S (Nat.max (depth a) (depth b)))) by lia.
  remember (Nat.max (depth a) (depth b)) as n eqn:Hn.
  destruct a, b; try reflexivity; cbn [depth] in Hn; cbn [eqvn].
  - apply forallb2_ext. intros x y Hx Hy. apply depth_in in Hx, Hy. apply eqv_fuel. lia.
  - f_equal. apply forallb2_ext. intros x y Hx Hy. apply depth_in in Hx, Hy. apply eqv_fuel. lia.
  - f_equal. destruct payload, payload0; auto. apply eqv_fuel. lia.
  - f_equal. apply forallb_ext_in. intros x Hx. apply existsb_ext_in. intros y Hy. f_equal. apply depth_in in Hx, Hy. apply eqv_fuel. lia.
  - f_equal. apply forallb_ext_in. intros x Hx.
    assert (E : find (fun q => (value_hash (fst q) =? value_hash (fst x)) && eqvn n (fst q) (fst x)) l0 =
                find (fun q => (value_hash (fst q) =? value_hash (fst x)) && eqv (fst q) (fst x)) l0).
    { apply find_ext_in. intros y Hy. f_equal. apply depth_in_map in Hx, Hy. destruct Hx, Hy. apply eqv_fuel. lia. }
    rewrite E. clear E. destruct (find _ _) as [q|] eqn:F; auto. apply List.find_some in F as [F _]. apply depth_in_map in Hx, F. destruct Hx, F. apply eqv_fuel. lia.
Qed.

Lemma bytes_eqb_eq : forall a b, bytes_eqb a b = true <-> a = b.
Proof.
  unfold bytes_eqb. induction a as [|x a IH]; intros [|y b]; simpl; try (split; (reflexivity || discriminate)).
  rewrite andb_true_iff, N.eqb_eq, IH. split; [intros [-> ->]; auto|intros E; injection E; auto].
Qed.
Lemma bytes_eqb_sym : forall a b, bytes_eqb a b = bytes_eqb b a.
Proof. intros. apply eq_true_iff_eq. rewrite !bytes_eqb_eq. split; auto. Qed.

(** The values for which equality and hashing agree. *)
Definition good (v : value) : Prop := valid v /\ no_negative_zero v.

Definition same_hash (a b : value) : Prop := forall st, hashv a st = hashv b st.

Definition Q (a : value) : Prop := good a -> forall b, good b ->
  eqv a b = eqv b a /\
  (eqv a b = true -> same_hash a b /\ forall c, good c -> eqv b c = eqv a c /\ eqv c b = eqv c a).

Lemma same_value_hash : forall a b, same_hash a b -> value_hash a = value_hash b.
Proof. intros a b H. unfold value_hash. rewrite H. auto. Qed.

Lemma Q_trans : forall a b c, Q a -> good a -> good b -> good c -> eqv a b = true -> eqv a c = true -> eqv b c = true.
Proof. intros a b c HQ Ga Gb Gc E1 E2. destruct (HQ Ga b Gb) as [_ H]. destruct (H E1) as [_ T]. destruct (T c Gc) as [-> _]. auto. Qed.

(** Products. *)
Lemma good_list : forall (C : list value -> value), (forall l, valid (C l) -> Forall valid l) -> (forall l, no_negative_zero (C l) -> Forall no_negative_zero l) ->
  forall l, good (C l) -> Forall good l.
Proof.
  intros C H1 H2 l [V Z]. apply H1 in V. apply H2 in Z. rewrite Forall_forall in *. intros x Hx. split; auto.
Qed.

Lemma Q_list : forall l, Forall Q l -> Forall good l -> forall r, Forall good r ->
  forallb2 eqv l r = forallb2 eqv r l /\
  (forallb2 eqv l r = true -> (length l = length r /\ forall st, fold_left (fun s x => hashv x s) l st = fold_left (fun s x => hashv x s) r st) /\
     forall c, Forall good c -> forallb2 eqv r c = forallb2 eqv l c /\ forallb2 eqv c r = forallb2 eqv c l).
Proof.
  induction l as [|x l IH]; intros HQ HG [|y r] HR; simpl.
  - split; auto.
  - split; [auto|discriminate].
  - split; [auto|discriminate].
  - inversion HQ as [|? ? Qx Ql]; subst. inversion HG as [|? ? Gx Gl]; subst. inversion HR as [|? ? Gy Gr]; subst.
    destruct (Qx Gx y Gy) as [S1 T1]. destruct (IH Ql Gl r Gr) as [S2 T2]. split; [rewrite S1, S2; auto|].
    intros E. apply andb_prop in E as [E1 E2]. destruct (T1 E1) as [H1 C1]. destruct (T2 E2) as [[L2 H2] C2]. split.
    + split; [congruence|]. intros st. rewrite H1. apply H2.
    + intros [|z c] HC; auto. inversion HC as [|? ? Gz Gc]; subst. simpl. destruct (C1 z Gz) as [-> ->]. destruct (C2 c Gc) as [-> ->]. auto.
Qed.

Lemma good_tuple : forall l, good (VTuple l) -> Forall good l.
Proof. apply (good_list VTuple); intros l H; inversion H; auto. Qed.
Lemma good_array : forall l, good (VArray l) -> Forall good l.
Proof. apply (good_list VArray); intros l H; inversion H; auto. Qed.
Lemma good_set : forall l, good (VSet l) -> Forall good l.
Proof. apply (good_list VSet); intros l H; inversion H; auto. Qed.
Lemma good_map : forall l, good (VMap l) -> Forall (fun p => good (fst p) /\ good (snd p)) l.
Proof.
  intros l [V Z]. inversion V as [| | | | | | | | | |? F1 _]; subst. inversion Z as [| | | | | | | | | |? F2]; subst.
  rewrite Forall_forall in *. intros p Hp. destruct (F1 p Hp), (F2 p Hp). split; split; auto.
Qed.

(** Sets. *)
Definition covers (r l : list value) : Prop := forall x, In x l -> exists y, In y r /\ eqv y x = true.

Lemma set_cover : forall l r, Forall Q l -> Forall good l -> Forall good r ->
  (forallb (fun x => existsb (fun y => (value_hash y =? value_hash x) && eqv y x) r) l = true <-> covers r l).
Proof.
  intros l r HQ HG HR. rewrite Forall_forall in *. rewrite forallb_forall. split.
  - intros H x Hx. specialize (H x Hx). apply existsb_exists in H as (y & Hy & E). apply andb_prop in E as [_ E]. eauto.
  - intros H x Hx. destruct (H x Hx) as (y & Hy & E). apply existsb_exists. exists y. split; auto. rewrite E, andb_true_r.
    apply N.eqb_eq. symmetry. apply same_value_hash. destruct (HQ x Hx (HG x Hx) y (HR y Hy)) as [S T]. apply T. congruence.
Qed.

Lemma set_cover' : forall l r, Forall Q l -> Forall good l -> Forall good r ->
  (forallb (fun x => existsb (fun y => (value_hash y =? value_hash x) && eqv y x) l) r = true <-> covers l r).
Proof.
  intros l r HQ HG HR. rewrite Forall_forall in *. rewrite forallb_forall. split.
  - intros H x Hx. specialize (H x Hx). apply existsb_exists in H as (y & Hy & E). apply andb_prop in E as [_ E]. eauto.
  - intros H x Hx. destruct (H x Hx) as (y & Hy & E). apply existsb_exists. exists y. split; auto. rewrite E, andb_true_r.
    apply N.eqb_eq. apply same_value_hash. destruct (HQ y Hy (HG y Hy) x (HR x Hx)) as [S T]. apply T. congruence.
Qed.

Lemma FOP_impl : forall A (R S : A -> A -> Prop) l, (forall x y, In x l -> In y l -> R x y -> S x y) -> ForallOrdPairs R l -> ForallOrdPairs S l.
Proof.
  intros A R S l H F. induction F; constructor.
  - rewrite Forall_forall in *. intros y Hy. apply H; simpl; auto.
  - apply IHF. intros. apply H; simpl; auto.
Qed.

Lemma set_match : forall l r, Forall Q l -> Forall good l -> Forall good r -> length l = length r ->
  ForallOrdPairs (fun x y => eqv x y = false) l -> covers r l -> Permutation (map value_hash l) (map value_hash r) /\ covers l r.
Proof.
  intros l r HQ HG HR HL HD HC. rewrite Forall_forall in *.
  destruct (matching _ _ (fun x y => eqv x y = true) value_hash value_hash l r) as [P M]; auto.
  - eapply FOP_impl; [|exact HD]. simpl. intros x y Hx Hy E z Hz E1 E2.
    assert (Gx := HG x Hx). assert (Gy := HG y Hy). assert (Gz := HR z Hz).
    destruct (HQ y Hy Gy z Gz) as [_ T]. destruct (T E2) as [_ T2]. destruct (T2 x Gx) as [_ T3]. congruence.
  - intros x Hx. destruct (HC x Hx) as (y & Hy & E). exists y. split; auto. destruct (HQ x Hx (HG x Hx) y (HR y Hy)) as [-> _]. auto.
  - intros x y Hx Hy E. destruct (HQ x Hx (HG x Hx) y (HR y Hy)) as [_ T]. apply same_value_hash. apply T. auto.
Qed.

Lemma set_match' : forall l r, Forall Q l -> Forall good l -> Forall good r -> length l = length r ->
  ForallOrdPairs (fun x y => eqv x y = false) r -> covers l r -> covers r l.
Proof.
  intros l r HQ HG HR HL HD HC. rewrite Forall_forall in *.
  destruct (matching _ _ (fun y x => eqv x y = true) (fun _ => 0) (fun _ => 0) r l) as [_ M]; auto.
  - eapply FOP_impl; [|exact HD]. simpl. intros x y Hx Hy E z Hz E1 E2.
    rewrite (Q_trans z x y (HQ z Hz)) in E; auto. discriminate.
  - intros x Hx. destruct (M x Hx) as (y & Hy & E). exists y. split; auto. destruct (HQ x Hx (HG x Hx) y (HR y Hy)) as [<- _]. auto.
Qed.

Lemma hashv_set : forall l st, hashv (VSet l) st = collection_hash tag_hash_set (map value_hash l) (length l) st.
Proof. reflexivity. Qed.

Lemma Q_set : forall l, Forall Q l -> Q (VSet l).
Proof.
  intros l HQ G b Gb. pose proof (good_set _ G) as GL. pose proof G as [V _]. inversion V as [| | | | | | | | |? _ HD|]; subst.
  destruct b; try (rewrite !eqv_step; split; [auto|discriminate]).
  rename l0 into r. pose proof (good_set _ Gb) as GR. pose proof Gb as [Vb _]. inversion Vb as [| | | | | | | | |? _ HDr|]; subst.
  rewrite (eqv_step (VSet l)), (eqv_step (VSet r)). rewrite (Nat.eqb_sym (length r)).
  destruct (Nat.eqb_spec (length l) (length r)) as [EL|]; simpl; [|split; [auto|discriminate]].
  pose proof (set_cover l r HQ GL GR) as C1. pose proof (set_cover' l r HQ GL GR) as C2. split.
  - apply eq_true_iff_eq. rewrite C1, C2. split; intros H.
    + apply (set_match l r); auto.
    + apply (set_match' l r); auto.
  - rewrite C1. intros HC. destruct (set_match l r HQ GL GR EL HD HC) as [P HC']. split.
    + intros st. rewrite !hashv_set, EL. apply collection_hash_perm. auto.
    + intros c Gc. rewrite (eqv_step (VSet r) c), (eqv_step (VSet l) c), (eqv_step c (VSet r)), (eqv_step c (VSet l)).
      destruct c; auto. rename l0 into s. rewrite EL. destruct (Nat.eqb_spec (length r) (length s)) as [ES|NS]; simpl.
      2:{ destruct (Nat.eqb_spec (length s) (length r)); [congruence|]. auto. }
      rewrite ES, Nat.eqb_refl. simpl. pose proof (good_set _ Gc) as GS. rewrite Forall_forall in *. split.
      * apply eq_true_iff_eq. rewrite !forallb_forall. split; intros H x Hx.
        -- destruct (HC x Hx) as (y & Hy & E). specialize (H y Hy). rewrite <- H.
           destruct (HQ x Hx (GL x Hx) y (GR y Hy)) as [SY T]. rewrite <- SY in E. destruct (T E) as [SH T2].
           apply existsb_ext_in. intros z Hz. rewrite (same_value_hash _ _ SH). destruct (T2 z (GS z Hz)) as [_ ->]. auto.
        -- destruct (HC' x Hx) as (y & Hy & E). specialize (H y Hy). rewrite <- H.
           destruct (HQ y Hy (GL y Hy) x (GR x Hx)) as [SY T]. destruct (T E) as [SH T2].
           apply existsb_ext_in. intros z Hz. rewrite (same_value_hash _ _ SH). destruct (T2 z (GS z Hz)) as [_ ->]. auto.
      * apply forallb_ext_in. intros z Hz. apply eq_true_iff_eq. rewrite !existsb_exists. split.
        -- intros (y & Hy & E). destruct (HC' y Hy) as (x & Hx & Exy). exists x. split; auto.
           destruct (HQ x Hx (GL x Hx) y (GR y Hy)) as [SY T]. destruct (T Exy) as [SH T2].
           rewrite (same_value_hash _ _ SH). destruct (T2 z (GS z Hz)) as [<- _]. auto.
        -- intros (x & Hx & E). destruct (HC x Hx) as (y & Hy & Eyx). exists y. split; auto.
           destruct (HQ x Hx (GL x Hx) y (GR y Hy)) as [SY T]. rewrite <- SY in Eyx. destruct (T Eyx) as [SH T2].
           rewrite <- (same_value_hash _ _ SH). destruct (T2 z (GS z Hz)) as [-> _]. auto.
Qed.

(** Maps: an item matches when both its key and its value do. *)
Definition eqp (p q : value * value) : bool := eqv (fst p) (fst q) && eqv (snd p) (snd q).
Definition pair_hash (p : value * value) : N := hasher_finish (hashv (snd p) (hashv (fst p) hasher_new)).
Definition pgood (p : value * value) : Prop := good (fst p) /\ good (snd p).
Definition PQ (p : value * value) : Prop := Q (fst p) /\ Q (snd p).
Definition pcovers (r l : list (value * value)) : Prop := forall p, In p l -> exists q, In q r /\ eqp q p = true.

Lemma hashv_map : forall l st, hashv (VMap l) st = collection_hash tag_hash_map (map pair_hash l) (length l) st.
Proof.
  intros. cbn [hashv]. f_equal. apply map_ext. intros [k w]. reflexivity.
Qed.

Lemma PQ_sym : forall p q, PQ p -> pgood p -> pgood q -> eqp p q = eqp q p.
Proof. intros p q [Q1 Q2] [G1 G2] [H1 H2]. unfold eqp. destruct (Q1 G1 _ H1) as [-> _], (Q2 G2 _ H2) as [-> _]. auto. Qed.

Lemma PQ_hash : forall p q, PQ p -> pgood p -> pgood q -> eqp p q = true -> pair_hash p = pair_hash q.
Proof.
  intros p q [Q1 Q2] [G1 G2] [H1 H2] E. apply andb_prop in E as [E1 E2]. destruct (Q1 G1 _ H1) as [_ T1], (Q2 G2 _ H2) as [_ T2].
  unfold pair_hash. destruct (T1 E1) as [S1 _], (T2 E2) as [S2 _]. rewrite S1, S2. auto.
Qed.

Lemma PQ_trans : forall p q c, PQ p -> pgood p -> pgood q -> pgood c -> eqp p q = true -> eqp q c = eqp p c /\ eqp c q = eqp c p.
Proof.
  intros p q c [Q1 Q2] [G1 G2] [H1 H2] [C1 C2] E. apply andb_prop in E as [E1 E2]. destruct (Q1 G1 _ H1) as [_ T1], (Q2 G2 _ H2) as [_ T2].
  destruct (T1 E1) as [_ U1], (T2 E2) as [_ U2]. unfold eqp. destruct (U1 _ C1) as [-> ->], (U2 _ C2) as [-> ->]. auto.
Qed.

(** With pairwise different keys on the searched side, the lookup agrees with pair membership. *)
Lemma find_existsb : forall p r, ForallOrdPairs (fun p q => eqv (fst p) (fst q) = false) r ->
  (forall a b, In a r -> In b r -> eqv (fst a) (fst p) = true -> eqv (fst b) (fst p) = true -> eqv (fst a) (fst b) = true) ->
  (forall q, In q r -> eqv (fst q) (fst p) = true -> value_hash (fst q) = value_hash (fst p)) ->
  match find (fun q => (value_hash (fst q) =? value_hash (fst p)) && eqv (fst q) (fst p)) r with
  | Some q => eqv (snd q) (snd p) | None => false end = existsb (fun q => eqp q p) r.
Proof.
  intros p r D. induction D as [|x r F D IH]; intros HT HH; simpl; auto.
  destruct (eqv (fst x) (fst p)) eqn:E.
  - rewrite (HH x) by (simpl; auto). rewrite N.eqb_refl. simpl. unfold eqp. rewrite E. simpl.
    destruct (eqv (snd x) (snd p)); auto. simpl. symmetry. rewrite <- not_true_iff_false. intros X. apply existsb_exists in X as (y & Hy & Ey).
    apply andb_prop in Ey as [Ey _]. rewrite Forall_forall in F. specialize (F y Hy). rewrite HT in F; simpl; auto. discriminate.
  - unfold eqp. rewrite E, andb_false_r. simpl. apply IH; intros; [apply HT|apply HH]; simpl; auto.
Qed.

Lemma map_cover : forall l r, Forall PQ l -> Forall pgood l -> Forall pgood r -> ForallOrdPairs (fun p q => eqv (fst p) (fst q) = false) r ->
  forallb (fun p => match find (fun q => (value_hash (fst q) =? value_hash (fst p)) && eqv (fst q) (fst p)) r with
                            | Some q => eqv (snd q) (snd p) | None => false end) l =
  forallb (fun p => existsb (fun q => eqp q p) r) l.
Proof.
  intros l r HQ HG HR D. rewrite Forall_forall in *. apply forallb_ext_in. intros p Hp. destruct (HQ p Hp) as [Q1 _]. destruct (HG p Hp) as [G1 _].
  apply find_existsb; auto.
  - intros a b Ha Hb E1 E2. destruct (HR a Ha) as [Ga _], (HR b Hb) as [Gb _].
    destruct (Q1 G1 _ Ga) as [S1 _], (Q1 G1 _ Gb) as [S2 _]. eapply (Q_trans (fst p)); eauto; congruence.
  - intros q Hq E. destruct (HR q Hq) as [Gq _]. destruct (Q1 G1 _ Gq) as [S1 T1]. symmetry. apply same_value_hash. apply T1. congruence.
Qed.

Lemma map_cover' : forall l r, Forall PQ l -> Forall pgood l -> Forall pgood r -> ForallOrdPairs (fun p q => eqv (fst p) (fst q) = false) l ->
  forallb (fun p => match find (fun q => (value_hash (fst q) =? value_hash (fst p)) && eqv (fst q) (fst p)) l with
                            | Some q => eqv (snd q) (snd p) | None => false end) r =
  forallb (fun p => existsb (fun q => eqp q p) l) r.
Proof.
  intros l r HQ HG HR D. rewrite Forall_forall in *. apply forallb_ext_in. intros p Hp. destruct (HR p Hp) as [G1 _].
  apply find_existsb; auto.
  - intros a b Ha Hb E1 E2. destruct (HG a Ha) as [Ga _], (HG b Hb) as [Gb _]. destruct (HQ a Ha) as [Qa _], (HQ b Hb) as [Qb _].
    destruct (Qa Ga _ G1) as [_ T]. destruct (T E1) as [_ T2]. destruct (T2 _ Gb) as [_ T3]. rewrite T3 in E2.
    destruct (Qb Gb _ Ga) as [-> _] in E2. auto.
  - intros q Hq E. destruct (HG q Hq) as [Gq _]. destruct (HQ q Hq) as [Qq _]. destruct (Qq Gq _ G1) as [S1 T1]. apply same_value_hash. apply T1. auto.
Qed.

Lemma pcovers_iff : forall l r, forallb (fun p => existsb (fun q => eqp q p) r) l = true <-> pcovers r l.
Proof.
  intros. rewrite forallb_forall. unfold pcovers. split; intros H p Hp.
  - apply existsb_exists. auto.
  - apply existsb_exists. auto.
Qed.

Lemma eqp_false : forall p q, eqv (fst p) (fst q) = false -> eqp p q = false.
Proof. intros p q H. unfold eqp. rewrite H. auto. Qed.

Lemma map_match : forall l r, Forall PQ l -> Forall pgood l -> Forall pgood r -> length l = length r ->
  ForallOrdPairs (fun x y => eqp x y = false) l -> pcovers r l -> Permutation (map pair_hash l) (map pair_hash r) /\ pcovers l r.
Proof.
  intros l r HQ HG HR HL HD HC. rewrite Forall_forall in *.
  destruct (matching _ _ (fun x y => eqp x y = true) pair_hash pair_hash l r) as [P M]; auto.
  - eapply FOP_impl; [|exact HD]. simpl. intros x y Hx Hy E z Hz E1 E2.
    destruct (PQ_trans y z x) as [_ T]; auto. congruence.
  - intros x Hx. destruct (HC x Hx) as (y & Hy & E). exists y. split; auto. rewrite (PQ_sym x y); auto.
  - intros x y Hx Hy E. apply PQ_hash; auto.
Qed.

Lemma map_match' : forall l r, Forall PQ l -> Forall pgood l -> Forall pgood r -> length l = length r ->
  ForallOrdPairs (fun x y => eqp x y = false) r -> pcovers l r -> pcovers r l.
Proof.
  intros l r HQ HG HR HL HD HC. rewrite Forall_forall in *.
  destruct (matching _ _ (fun y x => eqp x y = true) (fun _ => 0) (fun _ => 0) r l) as [_ M]; auto.
  - eapply FOP_impl; [|exact HD]. simpl. intros x y Hx Hy E z Hz E1 E2.
    destruct (PQ_trans z x y) as [T _]; auto. congruence.
  - intros x Hx. destruct (M x Hx) as (y & Hy & E). exists y. split; auto. rewrite <- (PQ_sym x y); auto.
Qed.

Lemma Q_map : forall l, Forall (fun p => Q (fst p) /\ Q (snd p)) l -> Q (VMap l).
Proof.
  intros l HQ G b Gb. pose proof (good_map _ G) as GL. pose proof G as [V _]. inversion V as [| | | | | | | | | |? _ HD]; subst.
  destruct b; try (rewrite !eqv_step; split; [auto|discriminate]).
  rename l0 into r. pose proof (good_map _ Gb) as GR. pose proof Gb as [Vb _]. inversion Vb as [| | | | | | | | | |? _ HDr]; subst.
  rewrite (eqv_step (VMap l)), (eqv_step (VMap r)). rewrite (Nat.eqb_sym (length r)).
  destruct (Nat.eqb_spec (length l) (length r)) as [EL|]; simpl; [|split; [auto|discriminate]].
  rewrite (map_cover l r), (map_cover' l r) by auto.
  assert (PD : forall l, ForallOrdPairs (fun p q => eqv (fst p) (fst q) = false) l -> ForallOrdPairs (fun x y => eqp x y = false) l).
  { intros z. apply FOP_impl. intros. apply eqp_false. auto. }
  split.
  - apply eq_true_iff_eq. rewrite !pcovers_iff. split; intros H.
    + apply (map_match l r); auto.
    + apply (map_match' l r); auto.
  - rewrite pcovers_iff. intros HC. destruct (map_match l r HQ GL GR EL (PD _ HD) HC) as [P HC']. split.
    + intros st. rewrite !hashv_map, EL. apply collection_hash_perm. auto.
    + intros c Gc. rewrite (eqv_step (VMap r) c), (eqv_step (VMap l) c), (eqv_step c (VMap r)), (eqv_step c (VMap l)).
      destruct c; auto. rename l0 into s. rewrite EL. destruct (Nat.eqb_spec (length r) (length s)) as [ES|NS]; simpl.
      2:{ destruct (Nat.eqb_spec (length s) (length r)); [congruence|]. auto. }
      rewrite ES, Nat.eqb_refl. simpl. pose proof (good_map _ Gc) as GS. pose proof Gc as [Vc _]. inversion Vc as [| | | | | | | | | |? _ HDs]; subst.
      assert (K1 : forall p, In p r -> exists x, In x l /\ eqp x p = true) by (intros; apply HC'; auto).
      assert (K2 : forall x, In x l -> exists p, In p r /\ eqp x p = true).
      { rewrite Forall_forall in *. intros x Hx. destruct (HC x Hx) as (p & Hp & E). exists p. split; auto. rewrite (PQ_sym x p); auto; [apply HQ; auto|apply GL; auto|apply GR; auto]. }
      rewrite Forall_forall in HQ, GL, GR, GS.
      (* searching s for items of r or of l *)
      assert (F1 : forall (p x z : value * value), In p r -> In x l -> In z s -> eqp x p = true ->
         (value_hash (fst z) =? value_hash (fst p)) && eqv (fst z) (fst p) = (value_hash (fst z) =? value_hash (fst x)) && eqv (fst z) (fst x) /\
         eqv (snd z) (snd p) = eqv (snd z) (snd x) /\
         (value_hash (fst p) =? value_hash (fst z)) && eqv (fst p) (fst z) = (value_hash (fst x) =? value_hash (fst z)) && eqv (fst x) (fst z) /\
         eqv (snd p) (snd z) = eqv (snd x) (snd z)).
      { intros p x z Hp Hx Hz E. apply andb_prop in E as [E1 E2]. destruct (HQ x Hx) as [Qk Qv]. destruct (GL x Hx) as [Gk Gv]. destruct (GR p Hp) as [Gpk Gpv]. destruct (GS z Hz) as [Gzk Gzv].
        destruct (Qk Gk _ Gpk) as [_ T1]. destruct (T1 E1) as [SH U1]. destruct (Qv Gv _ Gpv) as [_ T2]. destruct (T2 E2) as [_ U2].
        rewrite (same_value_hash _ _ SH). destruct (U1 _ Gzk) as [-> ->], (U2 _ Gzv) as [-> ->]. auto. }
      split.
      * assert (W : forall p x, In p r -> In x l -> eqp x p = true ->
          match find (fun q => (value_hash (fst q) =? value_hash (fst p)) && eqv (fst q) (fst p)) s with Some q => eqv (snd q) (snd p) | None => false end =
          match find (fun q => (value_hash (fst q) =? value_hash (fst x)) && eqv (fst q) (fst x)) s with Some q => eqv (snd q) (snd x) | None => false end).
        { intros p x Hp Hx E. rewrite (find_ext_in _ _ (fun q => (value_hash (fst q) =? value_hash (fst x)) && eqv (fst q) (fst x)) s).
          - destruct (find _ s) as [q|] eqn:F; auto. apply List.find_some in F as [F _]. apply (F1 p x q); auto.
          - intros z Hz. apply (F1 p x z); auto. }
        apply eq_true_iff_eq. rewrite !forallb_forall. split; intros H x Hx.
        -- destruct (K2 x Hx) as (p & Hp & E). rewrite <- (W p x) by auto. auto.
        -- destruct (K1 x Hx) as (p & Hp & E). rewrite (W x p) by auto. auto.
      * rewrite <- Forall_forall in HQ, GL, GR, GS.
        assert (W : forall z, In z s -> match find (fun q => (value_hash (fst q) =? value_hash (fst z)) && eqv (fst q) (fst z)) r with Some q => eqv (snd q) (snd z) | None => false end = existsb (fun q => eqp q z) r).
        { rewrite Forall_forall in HQ, GL, GR, GS. intros z Hz. apply find_existsb; auto.
          - intros a b Ha Hb E1 E2. destruct (K1 a Ha) as (x & Hx & Ex). destruct (K1 b Hb) as (y & Hy & Ey).
            apply andb_prop in Ex as [Ex _], Ey as [Ey _]. destruct (HQ x Hx) as [Qx _], (HQ y Hy) as [Qy _], (GL x Hx) as [Gx _], (GL y Hy) as [Gy _], (GR a Ha) as [Ga _], (GR b Hb) as [Gb' _], (GS z Hz) as [Gz _].
            destruct (Qx Gx _ Ga) as [_ T1]. destruct (T1 Ex) as [_ U1]. destruct (Qy Gy _ Gb') as [_ T2]. destruct (T2 Ey) as [_ U2].
            destruct (U1 _ Gz) as [A1 _]. rewrite A1 in E1. destruct (U2 _ Gz) as [A2 _]. rewrite A2 in E2.
            destruct (Qy Gy _ Gz) as [A3 _]. rewrite A3 in E2. 
            destruct (Qx Gx _ Gz) as [_ T3]. destruct (T3 E1) as [_ U3]. destruct (U3 _ Gy) as [A4 _]. rewrite A4 in E2.
            destruct (U1 _ Gb') as [-> _]. destruct (Qx Gx _ Gy) as [_ T5]. destruct (T5 E2) as [_ U5]. destruct (U5 _ Gb') as [<- _]. auto.
          - intros q Hq E. destruct (K1 q Hq) as (x & Hx & Ex). apply andb_prop in Ex as [Ex _]. destruct (HQ x Hx) as [Qx _], (GL x Hx) as [Gx _], (GR q Hq) as [Gq _], (GS z Hz) as [Gz _].
            destruct (Qx Gx _ Gq) as [_ T1]. destruct (T1 Ex) as [SH U1]. rewrite <- (same_value_hash _ _ SH). destruct (U1 _ Gz) as [A1 _]. rewrite A1 in E.
            destruct (Qx Gx _ Gz) as [_ T2]. destruct (T2 E) as [SH2 _]. apply same_value_hash. auto. }
        rewrite (forallb_ext_in _ _ (fun z => existsb (fun q => eqp q z) r) s) by exact W.
        rewrite (map_cover' l s) by auto. apply forallb_ext_in. intros z Hz. rewrite Forall_forall in HQ, GL, GR, GS.
        assert (X : forall p x, In p r -> In x l -> eqp x p = true -> eqp p z = eqp x z).
        { intros p x Hp Hx E. destruct (PQ_trans x p z) as [T _]; auto; [apply HQ; auto|apply GL; auto|apply GR; auto|apply GS; auto]. }
        apply eq_true_iff_eq. rewrite !existsb_exists. split.
        -- intros (p & Hp & E). destruct (K1 p Hp) as (x & Hx & Ex). exists x. split; auto. rewrite <- (X p x); auto.
        -- intros (x & Hx & E). destruct (K2 x Hx) as (p & Hp & Ep). exists p. split; auto. rewrite (X p x); auto.
Qed.

Lemma eqv_Q : forall a, Q a.
Proof.
  apply value_ind'.
  - intros _ b Gb. rewrite !eqv_step. destruct b; split; auto; try discriminate. intros _. split; [intros st; auto|auto].
  - intros b G c Gc. rewrite !eqv_step. destruct c; try (split; [auto|discriminate]). rename b0 into c. split.
    + destruct b, c; auto.
    + intros E. apply eqb_prop in E. subst. split; [intros st; auto|auto].
  - intros z G c Gc. rewrite !eqv_step. destruct c; try (split; [auto|discriminate]). rename z0 into c. split.
    + apply Z.eqb_sym.
    + intros E. apply Z.eqb_eq in E. subst. split; [intros st; auto|auto].
  - intros b G c Gc. rewrite !eqv_step. destruct c; try (split; [auto|discriminate]). rename bits into c.
    destruct G as [_ Gb], Gc as [_ Gc]. inversion Gb as [| | |? Hb| | | | | | |]; subst. inversion Gc as [| | |? Hc| | | | | | |]; subst.
    assert (E : forall x y, x <> 2 ^ 63 -> y <> 2 ^ 63 -> float_eqb x y = (x =? y)).
    { intros x y Hx Hy. unfold float_eqb, is_zero_bits. apply N.eqb_neq in Hx, Hy. rewrite Hx, Hy, !orb_false_r.
      destruct (N.eqb_spec x y); auto. destruct (N.eqb_spec x 0), (N.eqb_spec y 0); auto. congruence. }
    rewrite !E by auto. split; [apply N.eqb_sym|]. intros X. apply N.eqb_eq in X. subst. split; [intros st; auto|auto].
  - intros s G c Gc. rewrite !eqv_step. destruct c; try (split; [auto|discriminate]). split; [apply bytes_eqb_sym|].
    intros E. apply bytes_eqb_eq in E. subst. split; [intros st; auto|auto].
  - intros l HQ G c Gc. destruct c; try (rewrite !eqv_step; split; [auto|discriminate]).
    destruct (Q_list l HQ (good_tuple _ G) l0 (good_tuple _ Gc)) as [S T]. rewrite (eqv_step (VTuple l)), (eqv_step (VTuple l0)). split; auto.
    intros E. destruct (T E) as [[HL HH] HC]. split; [intros st; apply HH|]. intros d Gd.
    rewrite (eqv_step (VTuple l0) d), (eqv_step (VTuple l) d), (eqv_step d (VTuple l)), (eqv_step d (VTuple l0)). destruct d; auto. apply HC. apply good_tuple. auto.
  - intros l HQ G c Gc. destruct c; try (rewrite !eqv_step; split; [auto|discriminate]).
    destruct (Q_list l HQ (good_array _ G) l0 (good_array _ Gc)) as [S T]. rewrite (eqv_step (VArray l)), (eqv_step (VArray l0)). split; [rewrite S, Nat.eqb_sym; auto|].
    intros E. apply andb_prop in E as [EL E]. apply Nat.eqb_eq in EL. destruct (T E) as [[HL HH] HC]. split; [intros st; cbn [hashv]; rewrite EL; apply HH|]. intros d Gd.
    rewrite (eqv_step (VArray l0) d), (eqv_step (VArray l) d), (eqv_step d (VArray l)), (eqv_step d (VArray l0)). destruct d; auto. rewrite EL.
    destruct (HC l1 (good_array _ Gd)) as [-> ->]. auto.
  - intros t G c Gc. rewrite !eqv_step. destruct c; try (split; [auto|discriminate]). rewrite (bytes_eqb_sym tag t).
    destruct payload; simpl; [rewrite andb_false_r; split; [auto|discriminate]|]. split; [auto|]. rewrite andb_true_r. intros E. apply bytes_eqb_eq in E. subst.
    split; [intros st; auto|auto].
  - intros t p Qp G c Gc. destruct c; try (rewrite !eqv_step; split; [auto|discriminate]).
    rewrite (eqv_step (VVariant t (Some p))), (eqv_step (VVariant tag payload)). rewrite (bytes_eqb_sym tag t).
    destruct payload as [q|]; simpl; [|rewrite andb_false_r; split; [auto|discriminate]].
    assert (GP : forall t p, good (VVariant t (Some p)) -> good p) by (intros t' p' [V Z]; inversion V; inversion Z; split; auto).
    destruct (Qp (GP _ _ G) q (GP _ _ Gc)) as [S T]. rewrite S. split; [auto|]. intros E. apply andb_prop in E as [E1 E2].
    apply bytes_eqb_eq in E1. subst tag. rewrite <- S in E2. destruct (T E2) as [HH HC]. split; [intros st; cbn [hashv]; apply HH|].
    intros d Gd. rewrite (eqv_step (VVariant t (Some q)) d), (eqv_step (VVariant t (Some p)) d), (eqv_step d (VVariant t (Some p))), (eqv_step d (VVariant t (Some q))).
    destruct d; auto. destruct payload; auto. destruct (HC v (GP _ _ Gd)) as [-> ->]. auto.
  - apply Q_set.
  - apply Q_map.
Qed.

Lemma eqv_refl : forall a, good a -> eqv a a = true.
Proof.
  apply (value_ind' (fun a => good a -> eqv a a = true)); intros; rewrite eqv_step; auto.
  - apply eqb_reflx.
  - apply Z.eqb_refl.
  - unfold float_eqb. rewrite N.eqb_refl. auto.
  - apply bytes_eqb_eq. auto.
  - apply good_tuple in H0. clear - H H0. induction l; simpl; auto. inversion H; inversion H0; subst. rewrite H3 by auto. simpl. auto.
  - rewrite Nat.eqb_refl. simpl. apply good_array in H0. clear - H H0. induction l; simpl; auto. inversion H; inversion H0; subst. rewrite H3 by auto. simpl. auto.
  - rewrite andb_true_r. apply bytes_eqb_eq. auto.
  - apply andb_true_iff. split; [apply bytes_eqb_eq; auto|]. apply H. destruct H0 as [V Z]; inversion V; inversion Z; split; auto.
  - rewrite Nat.eqb_refl. simpl. apply good_set in H0. rewrite Forall_forall in *. apply forallb_forall. intros x Hx. apply existsb_exists. exists x.
    split; auto. rewrite N.eqb_refl. simpl. auto.
  - rewrite Nat.eqb_refl. simpl. pose proof (good_map _ H0) as GM. destruct H0 as [V _]. inversion V as [| | | | | | | | | |? _ HD]; subst.
    rewrite (map_cover l l); auto.
    + apply forallb_forall. intros x Hx. apply existsb_exists. exists x. split; auto. rewrite Forall_forall in *. destruct (H x Hx) as [R1 R2], (GM x Hx). unfold eqp. rewrite R1, R2 by auto. auto.
    + apply Forall_forall. intros x _. split; apply eqv_Q.
Qed.

(** ** Theorems *)
Lemma equal_hash : forall a b, valid a -> valid b -> no_negative_zero a -> no_negative_zero b -> eqv a b = true ->
  forall st, hashv a st = hashv b st.
Proof. intros a b Va Vb Za Zb E. destruct (eqv_Q a (conj Va Za) b (conj Vb Zb)) as [_ T]. apply T. auto. Qed.

Lemma values_lawful : lawful (fun a b : { v : value | valid v /\ no_negative_zero v } => eqv (proj1_sig a) (proj1_sig b))
  (fun a => value_hash (proj1_sig a)).
Proof.
  constructor.
  - intros [a Ga]. apply eqv_refl. exact Ga.
  - intros [a Ga] [b Gb]. simpl. intros E. destruct (eqv_Q a Ga b Gb) as [<- _]. auto.
  - intros [a Ga] [b Gb] [c Gc]. simpl. intros E1 E2. destruct (eqv_Q a Ga b Gb) as [_ T]. destruct (T E1) as [_ U]. destruct (U c Gc) as [<- _]. auto.
  - intros [a Ga] [b Gb]. simpl. intros E. apply same_value_hash. destruct (eqv_Q a Ga b Gb) as [_ T]. apply T. auto.
Qed.

Lemma equal_values : forall a b, valid a -> valid b -> no_negative_zero a -> no_negative_zero b ->
  eqv a b = true -> (forall st, hashv a st = hashv b st) /\ value_hash a = value_hash b.
Proof. intros. assert (S : forall st, hashv a st = hashv b st) by (apply equal_hash; auto). split; auto. apply same_value_hash. exact S. Qed.

Local Transparent mix_word final_mix hasher_new.
Lemma negative_zero :
  exists a b, valid a /\ valid b /\ eqv a b = true /\ value_hash a <> value_hash b /\
    exists t, set_run eqv value_hash tab_new [SInsert a; SInsert b; SLen] = Returned (t, [SBool true; SBool true; SInt 2]).
Proof.
  exists (VFloat 0), (VFloat (2 ^ 63)). split; [constructor; reflexivity|]. split; [constructor; reflexivity|].
  split; [reflexivity|]. split; [vm_compute; discriminate|]. eexists. vm_compute. reflexivity.
Qed.
